(** * The segments generated for offsets and strokes form closed walks. *)
From Verif Require Import Base Spec ModelSegm SegmProofs ModelMesh.
Open Scope Z_scope.

(** the direction in which a segment is travelled *)
Definition travel (s : segment cntO) : pt * pt := if osubj (sc s) =? 1 then (sa (sx s), sb (sx s)) else (sb (sx s), sa (sx s)).
(** a walk from [p] to [q] *)
Fixpoint leads (p : pt) (w : list (pt * pt)) (q : pt) : Prop :=
  match w with
  | [] => p = q
  | (a, b) :: r => a = p /\ leads b r q
  end.
(** a walk from [p] to [q] that passes along the given sides in this order; in between it only takes proper moves *)
Fixpoint route (p : pt) (sides : list (pt * pt)) (w : list (pt * pt)) (q : pt) : Prop :=
  match sides with
  | [] => leads p w q /\ Forall (fun m => fst m <> snd m) w
  | (a, b) :: r => exists c w', w = c ++ (a, b) :: w' /\ leads p c a /\ Forall (fun m => fst m <> snd m) c /\ route b r w' q
  end.
(** the moves along a list of points *)
Fixpoint moves (l : list pt) : list (pt * pt) :=
  match l with a :: ((b :: _) as r) => (a, b) :: moves r | _ => [] end.
(** the segments are the moves of the walk, each one a segment of weight 1 or -1 with ordered ends *)
Definition proper (s : segment cntO) : Prop := (osubj (sc s) = 1 /\ pt_lt (sa (sx s)) (sb (sx s))) \/ (osubj (sc s) = -1 /\ ~ pt_lt (sb (sx s)) (sa (sx s))).

Lemma leads_app p u q w r : leads p u q -> leads q w r -> leads p (u ++ w) r.
Proof. revert p. induction u as [|[a b] u IH]; intros p; simpl; [intros ->; auto|]. intros [-> H] K. split; eauto. Qed.
Lemma route_leads sides : forall p w q, route p sides w q -> leads p w q.
Proof.
  induction sides as [|[a b] r IH]; intros p w q; cbn [route]; [tauto|]. intros (c & w' & -> & L & _ & R). eapply leads_app; [exact L|]. split; auto.
Qed.
Lemma route_app s1 : forall s2 p u q w r, route p s1 u q -> route q s2 w r -> route p (s1 ++ s2) (u ++ w) r.
Proof.
  induction s1 as [|[a b] s1 IH]; intros s2 p u q w r; cbn [route app].
  - intros [L F] R. destruct s2 as [|[a b] s2]; cbn [route] in *.
    + destruct R as [L2 F2]. split; [eapply leads_app; eauto|apply Forall_app; auto].
    + destruct R as (c & w' & -> & L2 & F2 & R). exists (u ++ c), w'. rewrite app_assoc. split; auto. split; [eapply leads_app; eauto|]. split; auto. apply Forall_app. auto.
  - intros (c & w' & -> & L & F & R1) R2. exists c, (w' ++ w). rewrite <- app_assoc. split; auto. split; auto. split; auto. eapply IH; eauto.
Qed.
Lemma route_side a b : route a [(a, b)] [(a, b)] b.
Proof. exists [], []. split; auto. simpl. auto. Qed.
Lemma leads_one a b : leads a [(a, b)] b.
Proof. simpl. auto. Qed.
Lemma travel_bold a b : travel (bold_ab a b) = (a, b).
Proof. unfold travel, bold_ab. destruct (pt_ltb a b); reflexivity. Qed.
Lemma travel_weak a b : travel (weak_ab a b) = (a, b).
Proof. unfold travel, weak_ab. destruct (pt_ltb a b); reflexivity. Qed.
Lemma proper_bold a b : proper (bold_ab a b).
Proof.
  unfold proper, bold_ab. destruct (pt_ltb a b) eqn:E; simpl; [left; split; auto; apply pt_ltb_lt; auto|right]. split; auto. intro L. apply pt_ltb_lt in L. congruence.
Qed.
Lemma proper_weak a b : proper (weak_ab a b).
Proof.
  unfold proper, weak_ab. destruct (pt_ltb a b) eqn:E; simpl; [left; split; auto; apply pt_ltb_lt; auto|right]. split; auto. intro L. apply pt_ltb_lt in L. congruence.
Qed.
Lemma wf_bold a b : a <> b -> wf_xseg (sx (bold_ab a b)).
Proof.
  intro N. unfold bold_ab. destruct (pt_ltb a b) eqn:E; simpl; unfold wf_xseg; simpl; [apply pt_ltb_lt; auto|].
  apply pt_ltb_ge in E. destruct (pt_total a b) as [[L|L]|L]; auto; [|congruence]. exfalso. apply pt_ltb_lt in L. apply pt_ltb_ge in E. congruence.
Qed.
Lemma wf_weak a b : a <> b -> wf_xseg (sx (weak_ab a b)).
Proof. intro N. pose proof (wf_bold a b N) as W. unfold bold_ab, weak_ab in *. destruct (pt_ltb a b); auto. Qed.

Section Walks.
  Variable F : FloatOps.
  Variable to_int : fp F -> pt.
  Notation push_ne := push_ne.

  (** the segments [l] are the walk [w] in this order *)
  Definition walks (l : list (segment cntO)) (p q : pt) : Prop := leads p (map travel l) q.
  Lemma walks_app l m p q r : walks l p q -> walks m q r -> walks (l ++ m) p r.
  Proof. unfold walks. rewrite map_app. apply leads_app. Qed.
  Lemma walks_nil p : walks [] p p.
  Proof. reflexivity. Qed.
  Lemma walks_bold a b : walks [bold_ab a b] a b.
  Proof. unfold walks. simpl. rewrite travel_bold. auto. Qed.
  Lemma walks_weak a b : walks [weak_ab a b] a b.
  Proof. unfold walks. simpl. rewrite travel_weak. auto. Qed.
  Lemma walks_push a b : walks (push_ne a b) a b.
  Proof. unfold ModelMesh.push_ne. destruct (pt_eqb a b) eqn:E; [apply pt_eqb_eq in E as ->; apply walks_nil|apply walks_bold]. Qed.

  (** [find_from] *)
  Lemma find_from_spec a index : forall path j i, find_from F to_int a index j path = Some i ->
    (j <= i)%nat /\ (index <= i)%nat /\ (i < j + length path)%nat.
  Proof.
    induction path as [|p r IH]; intros j i H; cbn [find_from] in H; [discriminate|]. cbn [length]. destruct (Nat.ltb_spec j index).
    - apply IH in H. lia.
    - destruct (pt_eqb a (to_int p)); [apply IH in H; lia|injection H as <-; lia].
  Qed.
  Lemma next_unique_spec start index path i : next_unique_point F to_int start index path = Some i -> (index <= i < length path)%nat.
  Proof. unfold next_unique_point. destruct (nth_error path start); [|discriminate]. intro H. apply find_from_spec in H. lia. Qed.

  (** ** outline *)
  Definition ojoin_ok (join : osection F -> osection F -> list (segment cntO)) : Prop := forall s0 s1,
    walks (join s0 s1) (to_int (os_btop F s0)) (to_int (os_atop F s1)) /\ Forall (fun s => proper s /\ wf_xseg (sx s)) (join s0 s1).
  Lemma join_weak_ok : ojoin_ok (join_weak F to_int).
  Proof.
    intros s0 s1. unfold join_weak. destruct (pt_eqb _ _) eqn:E.
    - apply pt_eqb_eq in E as ->. split; [apply walks_nil|constructor].
    - apply pt_eqb_neq in E. split; [apply walks_weak|]. constructor; auto using proper_weak, wf_weak.
  Qed.
  Lemma push_all a b : Forall (fun s => proper s /\ wf_xseg (sx s)) (push_ne a b).
  Proof. unfold ModelMesh.push_ne. destruct (pt_eqb a b) eqn:E; constructor; [|constructor]. apply pt_eqb_neq in E. auto using proper_bold, wf_bold. Qed.
  Lemma bold_all a b : a <> b -> Forall (fun s => proper s /\ wf_xseg (sx s)) [bold_ab a b].
  Proof. intro N. constructor; auto using proper_bold, wf_bold. Qed.
  Lemma sharp_spec pa pb va vb : match sharp F to_int pa pb va vb with
    | Degenerate => to_int pa = to_int pb
    | AB a b => a = to_int pa /\ b = to_int pb /\ a <> b
    | AcB a c b => a = to_int pa /\ b = to_int pb /\ a <> c /\ c <> b
    end.
  Proof.
    unfold sharp. destruct (pt_eqb (to_int pa) (to_int pb)) eqn:E; [apply pt_eqb_eq; auto|]. apply pt_eqb_neq in E. cbv zeta.
    match goal with |- context [pt_eqb (to_int pa) ?c] => set (ic := c) end.
    destruct (pt_eqb (to_int pa) ic) eqn:E1; simpl; auto. destruct (pt_eqb (to_int pb) ic) eqn:E2; simpl; auto.
    apply pt_eqb_neq in E1, E2. auto.
  Qed.
  Lemma omiter_ok m : ojoin_ok (omiter_join F to_int m).
  Proof.
    intros s0 s1. unfold omiter_join. cbv zeta. destruct (Bool.eqb _ _); [apply join_weak_ok|]. destruct (_ <? 4); [apply join_weak_ok|].
    destruct (n_lt F _ _).
    - match goal with |- context [push_ne _ ?c ++ push_ne _ ?d ++ _] => set (ac := c); set (bc := d) end.
      split; [eapply walks_app; [apply walks_push|eapply walks_app; apply walks_push]|]. apply Forall_app. split; [apply push_all|]. apply Forall_app. split; apply push_all.
    - pose proof (sharp_spec (os_btop F s0) (os_atop F s1) (os_dir F s0) (os_dir F s1)) as S. destruct (sharp _ _ _ _ _ _) as [|a b|a c b].
      + rewrite S. split; [apply walks_nil|constructor].
      + destruct S as (-> & -> & N). split; [apply walks_bold|apply bold_all; auto].
      + destruct S as (-> & -> & N1 & N2). split; [apply (walks_app [bold_ab _ _] [bold_ab _ _] _ c); apply walks_bold|].
        apply (proj2 (Forall_app _ [_] [_])). split; apply bold_all; auto.
  Qed.
  Lemma arc_spec rot center radius last : forall k v a,
    walks (arc_loop F to_int bold_ab rot center radius k v a last) a last /\ Forall (fun s => proper s /\ wf_xseg (sx s)) (arc_loop F to_int bold_ab rot center radius k v a last).
  Proof.
    induction k as [|k IH]; intros v a; cbn [arc_loop].
    - destruct (pt_eqb a last) eqn:E; [apply pt_eqb_eq in E as ->; split; [apply walks_nil|constructor]|]. apply pt_eqb_neq in E. split; [apply walks_bold|apply bold_all; auto].
    - cbv zeta. destruct (pt_eqb a _) eqn:E; [apply IH|]. apply pt_eqb_neq in E. destruct (IH (rotate F rot v) (to_int (p_add F center (p_scale F (rotate F rot v) radius)))) as [W A].
      split; [apply (walks_app [_] _ _ _ _ (walks_bold _ _) W)|constructor; auto using proper_bold, wf_bold].
  Qed.
  (** the same arc travelled backwards *)
  Lemma arc_back rot center radius last : forall k v a, exists w,
    Permutation (arc_loop F to_int (fun a b => bold_ab b a) rot center radius k v a last) w /\ walks w last a /\
    Forall (fun s => proper s /\ wf_xseg (sx s)) w.
  Proof.
    induction k as [|k IH]; intros v a; cbn [arc_loop].
    - destruct (pt_eqb a last) eqn:E; [apply pt_eqb_eq in E as ->; exists []; split; auto; split; [apply walks_nil|constructor]|].
      apply pt_eqb_neq in E. eexists. split; [apply Permutation_refl|]. split; [apply walks_bold|apply bold_all; auto].
    - cbv zeta. destruct (pt_eqb a _) eqn:E; [apply IH|]. apply pt_eqb_neq in E.
      destruct (IH (rotate F rot v) (to_int (p_add F center (p_scale F (rotate F rot v) radius)))) as (w & P & W & A).
      eexists (w ++ [_]). split; [rewrite P; apply Permutation_cons_append|]. split; [eapply walks_app; [exact W|apply walks_bold]|].
      apply Forall_app. split; auto. apply bold_all. auto.
  Qed.
  Lemma oround_ok r : ojoin_ok (oround_join F to_int r).
  Proof.
    intros s0 s1. unfold oround_join. cbv zeta. destruct (Bool.eqb _ _); [apply join_weak_ok|]. destruct (n_lt F _ _); [apply join_weak_ok|]. apply arc_spec.
  Qed.
  Lemma outline_join_ok radius j : ojoin_ok (outline_join F to_int radius j).
  Proof. destruct j; simpl; [apply join_weak_ok|apply omiter_ok|apply oround_ok]. Qed.

  (** the sides of a path that are used: a point that rounds to the same integer point as the last used one is left out *)
  Fixpoint path_sides (prev : fp F) (path : list (fp F)) : list (fp F * fp F) :=
    match path with
    | [] => []
    | p :: r => if pt_eqb (to_int p) (to_int prev) then path_sides prev r else (prev, p) :: path_sides p r
    end.
  Definition ring_sides (path : list (fp F)) : list (fp F * fp F) :=
    match path with [] => [] | p :: _ => path_sides (last path p) path end.
  Lemma find_from_skip a index : forall path j, (j <= index)%nat -> find_from F to_int a index j path = find_from F to_int a index index (skipn (index - j) path).
  Proof.
    induction path as [|p r IH]; intros j L; [rewrite skipn_nil; reflexivity|]. destruct (Nat.eq_dec j index) as [->|N]; [rewrite Nat.sub_diag; reflexivity|].
    cbn [find_from]. destruct (Nat.ltb_spec j index); [|lia]. replace (index - j)%nat with (S (index - S j)) by lia. cbn [skipn]. apply IH. lia.
  Qed.
  Lemma find_from_sides prev : forall path index j, (index <= j)%nat ->
    match find_from F to_int (to_int prev) index j path with
    | None => path_sides prev path = []
    | Some k => exists p, (j <= k)%nat /\ nth_error path (k - j) = Some p /\ path_sides prev path = (prev, p) :: path_sides p (skipn (S (k - j)) path)
    end.
  Proof.
    induction path as [|p r IH]; intros index j L; cbn [find_from path_sides]; auto. destruct (Nat.ltb_spec j index); [lia|].
    destruct (pt_eqb (to_int prev) (to_int p)) eqn:E.
    - apply pt_eqb_eq in E. rewrite E, (proj2 (pt_eqb_eq _ _) eq_refl). specialize (IH index (S j) ltac:(lia)). rewrite E in IH.
      destruct (find_from F to_int (to_int p) index (S j) r) as [k|]; auto. destruct IH as (p' & Lk & Hn & Hs). exists p'. split; [lia|].
      replace (k - j)%nat with (S (k - S j)) by lia. cbn [nth_error skipn]. split; auto.
    - apply pt_eqb_neq in E. destruct (pt_eqb (to_int p) (to_int prev)) eqn:E2; [apply pt_eqb_eq in E2; congruence|].
      exists p. rewrite Nat.sub_diag. cbn. auto.
  Qed.
  Lemma nth_skip {A} : forall n (l : list A) k, nth_error (skipn n l) k = nth_error l (n + k).
  Proof. induction n as [|n IH]; intros [|x l] k; cbn [skipn plus nth_error]; auto. destruct k; reflexivity. Qed.
  Lemma skip_skip {A} : forall m n (l : list A), skipn n (skipn m l) = skipn (m + n) l.
  Proof. induction m as [|m IH]; intros n [|x l]; cbn [skipn plus]; auto. apply skipn_nil. Qed.
  Lemma next_sides start index path prev : nth_error path start = Some prev ->
    match next_unique_point F to_int start index path with
    | None => path_sides prev (skipn index path) = []
    | Some k => exists p, (index <= k < length path)%nat /\ nth_error path k = Some p /\ path_sides prev (skipn index path) = (prev, p) :: path_sides p (skipn (S k) path)
    end.
  Proof.
    intro H. unfold next_unique_point. rewrite H, find_from_skip by lia. rewrite Nat.sub_0_r.
    pose proof (find_from_sides prev (skipn index path) index index (le_n _)) as S. pose proof (find_from_spec (to_int prev) index (skipn index path) index) as B.
    destruct (find_from F to_int (to_int prev) index index (skipn index path)) as [k|]; auto. destruct S as (p & L & Hn & Hs). exists p.
    rewrite nth_skip in Hn. replace (index + (k - index))%nat with k in Hn by lia.
    split; [|split; [exact Hn|]].
    - split; auto. apply nth_error_Some. congruence.
    - rewrite Hs, skip_skip. do 2 f_equal. f_equal. lia.
  Qed.

  (** a point of the side from [a] to [b], moved by [radius] to its left *)
  Definition shifted (radius : num F) (a b p : fp F) : pt := to_int (p_add F p (p_scale F (f_xy F (n_neg F (f_y F (p_norm F (p_sub F b a)))) (f_x F (p_norm F (p_sub F b a)))) radius)).
  Definition shifted_side (radius : num F) (e : fp F * fp F) : pt * pt := (shifted radius (fst e) (snd e) (fst e), shifted radius (fst e) (snd e) (snd e)).

  Lemma good_moves l : Forall (fun s => proper s /\ wf_xseg (sx s)) l -> Forall (fun m => fst m <> snd m) (map travel l).
  Proof.
    intro A. apply Forall_map. eapply Forall_impl; [|exact A]. cbv beta. intros s [_ W]. unfold travel. unfold wf_xseg in W.
    destruct (osubj (sc s) =? 1); simpl; intro E; rewrite E in W; apply pt_lt_irrefl in W; auto.
  Qed.
  Lemma outline_loop_spec radius join path start (J : ojoin_ok join) : forall fuel s0 i a,
    match i with
    | Some k => (length path <= fuel + k)%nat /\ exists p, nth_error path k = Some p /\ path_sides (os_b F s0) a = (os_b F s0, p) :: path_sides p (skipn (S k) path)
    | None => path_sides (os_b F s0) a = []
    end ->
    exists segs, outline_loop F to_int fuel radius join path start s0 i = Some segs /\
      route (to_int (os_btop F s0)) (map (shifted_side radius) (path_sides (os_b F s0) a)) (map travel segs) (to_int (os_atop F start)) /\ Forall proper segs.
  Proof.
    assert (Last : forall s0 a, path_sides (os_b F s0) a = [] -> exists segs, Some (join s0 start) = Some segs /\
      route (to_int (os_btop F s0)) (map (shifted_side radius) (path_sides (os_b F s0) a)) (map travel segs) (to_int (os_atop F start)) /\ Forall proper segs).
    { intros s0 a E. destruct (J s0 start) as [W A]. exists (join s0 start). split; auto. rewrite E. cbn [map route]. split; [split; [exact W|apply good_moves; auto]|].
      eapply Forall_impl; [|exact A]. cbv beta. tauto. }
    induction fuel as [|fuel IH]; intros s0 [i|] a Hi; cbn [outline_loop]; auto.
    - destruct Hi as (L & p & Hp & _). assert (i < length path)%nat by (apply nth_error_Some; congruence). lia.
    - destruct Hi as (Lf & p & Hp & Hs). rewrite Hp.
      set (si := osection_new F radius (os_b F s0) p). destruct (IH si (next_unique_point F to_int i (S i) path) (skipn (S i) path)) as (r & Hr & Wr & Ar).
      { pose proof (next_sides i (S i) path p Hp) as N. destruct (next_unique_point F to_int i (S i) path) as [k|]; auto.
        destruct N as (p' & Lk & Hn & Hs'). split; [lia|]. exists p'. auto. }
      rewrite Hr. cbn [option_map]. eexists. split; [reflexivity|]. destruct (J s0 si) as [Wj Aj]. split.
      + rewrite Hs. cbn [map route shifted_side fst snd]. exists (map travel (join s0 si)), (map travel r). rewrite !map_app. cbn [map o_add_section app].
        rewrite travel_bold. split; [reflexivity|]. split; [exact Wj|]. split; [apply good_moves; auto|exact Wr].
      + apply Forall_app. split; [eapply Forall_impl; [|exact Aj]; cbv beta; tauto|]. constructor; [apply proper_bold|exact Ar].
  Qed.
  Lemma last_nth {A} (l : list A) d : l <> [] -> nth_error l (length l - 1) = Some (last l d).
  Proof. intro N. destruct (exists_last N) as (l' & x & ->). rewrite app_length, nth_error_app2; cbn; [|lia]. replace (length l' + 1 - 1 - length l')%nat with O by lia. rewrite last_last. reflexivity. Qed.
  Lemma short_sides path : (length path < 2)%nat -> ring_sides path = [].
  Proof. destruct path as [|p [|]]; cbn; intro L; [auto| |lia]. rewrite (proj2 (pt_eqb_eq _ _) eq_refl). reflexivity. Qed.
  Lemma outline_build_spec radius join path : ojoin_ok join ->
    exists segs, outline_build F to_int radius join path = Some segs /\ Forall proper segs /\
      match map (shifted_side radius) (ring_sides path) with
      | [] => segs = []
      | (a, b) :: r => route a ((a, b) :: r) (map travel segs) a
      end.
  Proof.
    intro J. unfold outline_build. destruct (Nat.ltb_spec (length path) 2) as [L|L]; [exists []; rewrite short_sides by auto; split; [|split]; auto; reflexivity|].
    destruct path as [|q0 path0]; [cbn in L; lia|]. set (path := q0 :: path0) in *. assert (Hne : path <> []) by discriminate.
    pose proof (last_nth path q0 Hne) as H0. rewrite H0.
    pose proof (next_sides (length path - 1) 0 path _ H0) as N. cbn [skipn] in N. change (ring_sides path) with (path_sides (last path q0) path).
    destruct (next_unique_point F to_int (length path - 1) 0 path) as [i1|]; [|exists []; rewrite N; split; [|split]; auto; reflexivity].
    destruct N as (p1 & Li & H1 & Hs). rewrite H1, Hs. set (p0 := last path q0) in *.
    set (start := osection_new F radius p0 p1).
    destruct (outline_loop_spec radius join path start J (length path) start (next_unique_point F to_int i1 (S i1) path) (skipn (S i1) path)) as (r & Hr & Wr & Ar).
    { pose proof (next_sides i1 (S i1) path p1 H1) as N. destruct (next_unique_point F to_int i1 (S i1) path) as [k|]; auto.
      destruct N as (p' & Lk & Hn & Hs'). split; [lia|]. exists p'. auto. }
    cbv zeta. fold start. rewrite Hr. cbn [option_map]. eexists. split; [reflexivity|]. split; [constructor; auto using proper_bold|].
    cbn [map shifted_side fst snd route]. exists [], (map travel r). rewrite map_app. cbn [map o_add_section app]. rewrite travel_bold. split; [reflexivity|]. split; [reflexivity|]. split; auto.
  Qed.

  (** ** stroke *)
  Definition good (s : segment cntO) : Prop := proper s /\ wf_xseg (sx s).
  (** a join is a walk along the top, backwards, and one along the bottom *)
  Definition sjoin_ok (join : section F -> section F -> list (segment cntO)) : Prop := forall s0 s1, exists top bot,
    Permutation (join s0 s1) (top ++ bot) /\ walks top (to_int (s_atop F s1)) (to_int (s_btop F s0)) /\ walks bot (to_int (s_bbot F s0)) (to_int (s_abot F s1)) /\
    Forall good (join s0 s1).
  Lemma add_segment_spec a b : walks (add_segment F to_int a b) (to_int b) (to_int a) /\ Forall good (add_segment F to_int a b).
  Proof.
    unfold add_segment. cbv zeta. destruct (pt_eqb _ _) eqn:E; [apply pt_eqb_eq in E as ->; split; [apply walks_nil|constructor]|].
    apply pt_eqb_neq in E. split; [apply walks_bold|apply bold_all; auto].
  Qed.
  Lemma with_top s0 s1 bot w : Permutation bot w -> walks w (to_int (s_bbot F s0)) (to_int (s_abot F s1)) -> Forall good bot ->
    exists top bot', Permutation (join_top F to_int s0 s1 ++ bot) (top ++ bot') /\ walks top (to_int (s_atop F s1)) (to_int (s_btop F s0)) /\
      walks bot' (to_int (s_bbot F s0)) (to_int (s_abot F s1)) /\ Forall good (join_top F to_int s0 s1 ++ bot).
  Proof.
    intros P W A. destruct (add_segment_spec (s_btop F s0) (s_atop F s1)) as [W1 A1]. exists (join_top F to_int s0 s1), w.
    split; [apply Permutation_app_head; auto|]. split; [exact W1|]. split; auto. apply Forall_app. auto.
  Qed.
  Lemma with_bot s0 s1 top w : Permutation top w -> walks w (to_int (s_atop F s1)) (to_int (s_btop F s0)) -> Forall good top ->
    exists top' bot', Permutation (join_bot F to_int s0 s1 ++ top) (top' ++ bot') /\ walks top' (to_int (s_atop F s1)) (to_int (s_btop F s0)) /\
      walks bot' (to_int (s_bbot F s0)) (to_int (s_abot F s1)) /\ Forall good (join_bot F to_int s0 s1 ++ top).
  Proof.
    intros P W A. destruct (add_segment_spec (s_abot F s1) (s_bbot F s0)) as [W1 A1]. exists w, (join_bot F to_int s0 s1).
    split; [rewrite P; apply Permutation_app_comm|]. split; auto. split; [exact W1|]. apply Forall_app. auto.
  Qed.
  Lemma bevel_ok : sjoin_ok (bevel_join F to_int).
  Proof. intros s0 s1. unfold bevel_join. destruct (add_segment_spec (s_abot F s1) (s_bbot F s0)) as [W A]. apply (with_top s0 s1 _ _ (Permutation_refl _) W A). Qed.
  Lemma three_back ia iac ibc ib : walks (push_ne ib ibc ++ push_ne ibc iac ++ push_ne iac ia) ib ia /\
    Permutation (push_ne iac ia ++ push_ne ibc iac ++ push_ne ib ibc) (push_ne ib ibc ++ push_ne ibc iac ++ push_ne iac ia) /\
    Forall good (push_ne iac ia ++ push_ne ibc iac ++ push_ne ib ibc).
  Proof.
    split; [eapply walks_app; [apply walks_push|eapply walks_app; apply walks_push]|]. split.
    - rewrite Permutation_app_comm, <- app_assoc. rewrite Permutation_app_comm, <- app_assoc. apply Permutation_app_head, Permutation_app_comm.
    - repeat (apply Forall_app; split); apply push_all.
  Qed.
  Lemma sharp_back pa pb va vb : exists w, Permutation (match sharp F to_int pa pb va vb with AB a b => [bold_ab b a] | AcB a c b => [bold_ab c a; bold_ab b c] | Degenerate => [] end) w /\
    walks w (to_int pb) (to_int pa) /\ Forall good (match sharp F to_int pa pb va vb with AB a b => [bold_ab b a] | AcB a c b => [bold_ab c a; bold_ab b c] | Degenerate => [] end).
  Proof.
    pose proof (sharp_spec pa pb va vb) as S. destruct (sharp _ _ _ _ _ _) as [|a b|a c b].
    - rewrite S. exists []. split; auto. split; [apply walks_nil|constructor].
    - destruct S as (-> & -> & N). eexists. split; [apply Permutation_refl|]. split; [apply walks_bold|apply bold_all; auto].
    - destruct S as (-> & -> & N1 & N2). exists [bold_ab (to_int pb) c; bold_ab c (to_int pa)]. split; [apply perm_swap|].
      split; [apply (walks_app [_] [_] _ c); apply walks_bold|]. apply (proj2 (Forall_app _ [_] [_])). split; apply bold_all; auto.
  Qed.
  Lemma miter_ok m : sjoin_ok (miter_join F to_int m).
  Proof.
    intros s0 s1. unfold miter_join. cbv zeta. destruct (n_lt F (n_abs F _) _); [apply bevel_ok|].
    destruct (n_lt F (p_dot F _ _) _).
    - destruct (n_lt F (lit F 0) _); cbv zeta iota beta.
      + match goal with |- context [push_ne ?c _ ++ push_ne ?d _ ++ _] => set (ac := c); set (bc := d) end.
        destruct (pt_eqb _ _) eqn:E.
        * apply pt_eqb_eq in E. rewrite <- (app_nil_r (join_top F to_int s0 s1)). apply (with_top s0 s1 [] []); auto. rewrite E. apply walks_nil.
        * destruct (three_back (to_int (s_abot F s1)) ac bc (to_int (s_bbot F s0))) as (W & P & A). apply (with_top s0 s1 _ _ P W A).
      + match goal with |- context [push_ne ?c _ ++ push_ne ?d _ ++ _] => set (ac := c); set (bc := d) end.
        destruct (pt_eqb _ _) eqn:E.
        * apply pt_eqb_eq in E. rewrite <- (app_nil_r (join_bot F to_int s0 s1)). apply (with_bot s0 s1 [] []); auto. rewrite E. apply walks_nil.
        * destruct (three_back (to_int (s_btop F s0)) ac bc (to_int (s_atop F s1))) as (W & P & A). apply (with_bot s0 s1 _ _ P W A).
    - destruct (n_lt F (lit F 0) _); cbv zeta iota beta.
      + destruct (sharp_back (s_abot F s1) (s_bbot F s0) (s_dir F s1) (s_dir F s0)) as (w & P & W & A). apply (with_top s0 s1 _ _ P W A).
      + destruct (sharp_back (s_btop F s0) (s_atop F s1) (s_dir F s0) (s_dir F s1)) as (w & P & W & A). apply (with_bot s0 s1 _ _ P W A).
  Qed.
  Lemma sround_ok r : sjoin_ok (sround_join F to_int r).
  Proof.
    intros s0 s1. unfold sround_join. cbv zeta. destruct (n_lt F (sr_limit F r) _); [apply bevel_ok|].
    destruct (n_lt F (lit F 0) _); cbv zeta iota beta.
    - match goal with |- context [arc_loop F to_int _ ?rot ?c ?rad ?k ?v ?a ?l] => destruct (arc_back rot c rad l k v a) as (w & P & W & A) end.
      apply (with_top s0 s1 _ _ P W). rewrite P. auto.
    - match goal with |- context [arc_loop F to_int _ ?rot ?c ?rad ?k ?v ?a ?l] => destruct (arc_back rot c rad l k v a) as (w & P & W & A) end.
      apply (with_bot s0 s1 _ _ P W). rewrite P. auto.
  Qed.
  Lemma stroke_join_ok radius j : sjoin_ok (stroke_join F to_int radius j).
  Proof. destruct j; simpl; [apply bevel_ok|apply miter_ok|apply sround_ok]. Qed.

  (** a point of the side from [a] to [b], moved by [radius] to its right *)
  Definition shifted_right (radius : num F) (a b p : fp F) : pt := to_int (p_sub F p (p_scale F (f_xy F (n_neg F (f_y F (p_norm F (p_sub F b a)))) (f_x F (p_norm F (p_sub F b a)))) radius)).
  Definition right_side (radius : num F) (e : fp F * fp F) : pt * pt := (shifted_right radius (fst e) (snd e) (fst e), shifted_right radius (fst e) (snd e) (snd e)).
  (** the shifted left side, backwards *)
  Definition left_back (radius : num F) (e : fp F * fp F) : pt * pt := (snd (shifted_side radius e), fst (shifted_side radius e)).
  (** the points of a cap: turned into the direction [dir] and moved to [center] *)
  Definition cap_at (dir center : fp F) (points : list (fp F)) : list pt :=
    map (fun p => to_int (p_add F (f_xy F (n_add F (n_mul F (f_x F dir) (f_x F p)) (n_mul F (n_neg F (f_y F dir)) (f_y F p))) (n_add F (n_mul F (f_y F dir) (f_x F p)) (n_mul F (f_x F dir) (f_y F p)))) center)) points.

  Lemma cap_spec dir center last : forall points a, map travel (cap_loop F to_int (rot_vector F dir) center points a last) = moves (a :: cap_at dir center points ++ [last]) /\
    Forall proper (cap_loop F to_int (rot_vector F dir) center points a last).
  Proof.
    induction points as [|p r IH]; intro a; cbn [cap_loop]; cbv zeta.
    - cbn. rewrite travel_bold. split; [reflexivity|constructor; auto using proper_bold].
    - match goal with |- context [cap_loop F to_int (rot_vector F dir) center r ?b last] => destruct (IH b) as [W A] end.
      split; [|constructor; auto using proper_bold]. cbn [map]. rewrite travel_bold, W. unfold cap_at. cbn [map app]. destruct (map _ r); reflexivity.
  Qed.
  Lemma moves_leads : forall l a b, leads a (moves (a :: l ++ [b])) b.
  Proof. induction l as [|c l IH]; intros a b; [simpl; auto|]. cbn [app]. change (moves (a :: c :: l ++ [b])) with ((a, c) :: moves (c :: l ++ [b])). split; auto. Qed.

  Lemma open_loop_spec b : sjoin_ok (sb_join F b) -> forall rest x y ip0, ip0 = to_int y -> exists bot cap top,
    let r := sb_radius F b in
    let segs := open_loop F to_int b (section_new F r x y) ip0 rest in
    let sides := path_sides y rest in
    let e := last sides (x, y) in
    Permutation segs (bot ++ cap ++ top) /\ Forall proper segs /\
    route (shifted_right r x y y) (map (right_side r) sides) (map travel bot) (snd (right_side r e)) /\
    map travel cap = moves (snd (right_side r e) :: cap_at (p_norm F (p_sub F (snd e) (fst e))) (snd e) (opt_points F (sb_end F b)) ++ [snd (shifted_side r e)]) /\
    route (snd (shifted_side r e)) (rev (map (left_back r) sides)) (map travel top) (shifted r x y y).
  Proof.
    intro J. cbv zeta. induction rest as [|p rest IH]; intros x y ip0 E; cbn [open_loop path_sides].
    - exists [], (add_to_end F to_int (sb_end F b) (section_new F (sb_radius F b) x y)), []. rewrite app_nil_r. split; [apply Permutation_refl|].
      unfold add_to_end. match goal with |- context [cap_loop F to_int (rot_vector F ?d) ?c ?pts ?a ?l] => destruct (cap_spec d c l pts a) as [W A] end.
      split; auto. split; [cbn; auto|]. split; [exact W|]. cbn. auto.
    - subst ip0. destruct (pt_eqb _ _); [apply IH; auto|].
      set (r := sb_radius F b) in *. set (s0 := section_new F r x y). cbv zeta. change (s_b F s0) with y. set (s1 := section_new F r y p).
      destruct (IH y p (to_int p) eq_refl) as (bot & cap & top & P & A & Wb & Wc & Wt). fold s1 in P, A. destruct (J s0 s1) as (jt & jb & Pj & Wjt & Wjb & Aj).
      assert (Ajt : Forall good jt /\ Forall good jb) by (apply Forall_app; rewrite <- Pj; auto).
      replace (last ((y, p) :: path_sides p rest) (x, y)) with (last (path_sides p rest) (y, p)).
      2: { generalize (path_sides p rest) as l, (y, p), (x, y). clear. intros l d d'. change (last (d :: l) d') with (match l with [] => d | _ => last l d' end). destruct l as [|c l]; auto. revert c. induction l as [|e l IH]; intro c; auto. exact (IH e). }
      set (e := last (path_sides p rest) (y, p)) in *.
      exists (jb ++ [bold_ab (to_int (s_abot F s1)) (to_int (s_bbot F s1))] ++ bot), cap, (top ++ [bold_ab (to_int (s_btop F s1)) (to_int (s_atop F s1))] ++ jt).
      split; [|split; [|split; [|split]]].
      + rewrite Pj, P. unfold add_section. set (u := bold_ab (to_int (s_btop F s1)) _). set (v := bold_ab (to_int (s_abot F s1)) _).
        replace ((jb ++ [v] ++ bot) ++ cap ++ top ++ [u] ++ jt) with (jb ++ [v] ++ (bot ++ cap ++ top) ++ [u] ++ jt) by (rewrite <- !app_assoc; reflexivity).
        generalize (bot ++ cap ++ top) as m. intro m. rewrite <- app_assoc, (Permutation_app_swap_app jt jb). apply Permutation_app_head.
        rewrite (Permutation_app_comm jt). cbn [app]. rewrite perm_swap. constructor. apply Permutation_middle.
      + apply Forall_app. split; [eapply Forall_impl; [|exact Aj]; unfold good; tauto|]. repeat (apply Forall_cons; [apply proper_bold|]); auto.
      + cbn [map route]. unfold right_side at 1. cbn [fst snd]. exists (map travel jb), (map travel bot). rewrite !map_app. cbn [map app]. rewrite travel_bold.
        split; [reflexivity|]. split; [exact Wjb|]. split; [apply good_moves, Ajt|exact Wb].
      + exact Wc.
      + cbn [map rev]. rewrite map_app. eapply route_app; [exact Wt|]. unfold left_back at 1, shifted_side. cbn [fst snd route].
        exists [], (map travel jt). cbn [map app]. rewrite travel_bold. split; [reflexivity|]. split; [reflexivity|]. split; [constructor|]. split; [exact Wjt|apply good_moves, Ajt].
  Qed.
  Lemma first_other_sides p0 : forall rest, match first_other F to_int (to_int p0) rest with
    | None => path_sides p0 rest = []
    | Some (p, r) => path_sides p0 rest = (p0, p) :: path_sides p r
    end.
  Proof. induction rest as [|p r IH]; cbn [first_other path_sides]; auto. destruct (pt_eqb _ _); auto. Qed.
  Lemma open_spec b p0 rest : sjoin_ok (sb_join F b) -> rest <> [] -> exists segs, open_segments F to_int b (p0 :: rest) = Some segs /\ Forall proper segs /\
    let r := sb_radius F b in
    let sides := path_sides p0 rest in
    match sides with
    | [] => segs = []
    | (x, y) :: _ =>
        let e := last sides (x, y) in
        exists cap1 bot cap2 top, Permutation segs (cap1 ++ bot ++ cap2 ++ top) /\
          map travel cap1 = moves (shifted r x y x :: cap_at (f_xy F (n_neg F (f_x F (p_norm F (p_sub F y x)))) (n_neg F (f_y F (p_norm F (p_sub F y x))))) x (opt_points F (sb_start F b)) ++ [shifted_right r x y x]) /\
          route (shifted_right r x y x) (map (right_side r) sides) (map travel bot) (snd (right_side r e)) /\
          map travel cap2 = moves (snd (right_side r e) :: cap_at (p_norm F (p_sub F (snd e) (fst e))) (snd e) (opt_points F (sb_end F b)) ++ [snd (shifted_side r e)]) /\
          route (snd (shifted_side r e)) (rev (map (left_back r) sides)) (map travel top) (shifted r x y x)
    end.
  Proof.
    intros J Hr. unfold open_segments. destruct rest as [|p1 rest]; [congruence|]. pose proof (first_other_sides p0 (p1 :: rest)) as S.
    destruct (first_other F to_int (to_int p0) (p1 :: rest)) as [[p r]|].
    - eexists. split; [reflexivity|]. cbv zeta. rewrite S. set (rad := sb_radius F b). set (s0 := section_new F rad p0 p).
      destruct (open_loop_spec b J r p0 p (to_int p) eq_refl) as (bot & cap & top & P & A & Wb & Wc & Wt). fold rad in P, A, Wb, Wc, Wt. fold s0 in P, A.
      match goal with |- context [add_to_start F to_int ?pts ?s] => set (cp := add_to_start F to_int pts s) end.
      assert (C : map travel cp = moves (shifted rad p0 p p0 :: cap_at (f_xy F (n_neg F (f_x F (p_norm F (p_sub F p p0)))) (n_neg F (f_y F (p_norm F (p_sub F p p0))))) p0 (opt_points F (sb_start F b)) ++ [shifted_right rad p0 p p0]) /\ Forall proper cp).
      { unfold cp, add_to_start. apply cap_spec. }
      destruct C as [C1 C2].
      split; [apply Forall_app; split; auto; repeat (apply Forall_cons; [apply proper_bold|]); auto|].
      replace (last ((p0, p) :: path_sides p r) (p0, p)) with (last (path_sides p r) (p0, p)) by (destruct (path_sides p r); reflexivity).
      set (e := last (path_sides p r) (p0, p)) in *.
      exists cp, ([bold_ab (to_int (s_abot F s0)) (to_int (s_bbot F s0))] ++ bot), cap, (top ++ [bold_ab (to_int (s_btop F s0)) (to_int (s_atop F s0))]).
      split; [|split; [exact C1|split; [|split; [exact Wc|]]]].
      + apply Permutation_app_head. rewrite P. unfold add_section. change ([?x; ?y] ++ ?w) with ([x] ++ [y] ++ w). rewrite Permutation_app_comm. rewrite <- !app_assoc. reflexivity.
      + cbn [map route]. unfold right_side at 1. cbn [fst snd]. exists [], (map travel bot). cbn [map app]. rewrite travel_bold. split; [reflexivity|]. split; [reflexivity|]. split; auto.
      + cbn [map rev]. rewrite map_app. eapply route_app; [exact Wt|]. cbn [map]. rewrite travel_bold. apply route_side.
    - exists []. split; auto. split; auto. cbv zeta. rewrite S. reflexivity.
  Qed.
  Lemma closed_loop_spec b path x0 y0 (J : sjoin_ok (sb_join F b)) : let r := sb_radius F b in let start := section_new F r x0 y0 in forall fuel x y i a,
    match i with
    | Some k => (length path <= fuel + k)%nat /\ exists p, nth_error path k = Some p /\ path_sides y a = (y, p) :: path_sides p (skipn (S k) path)
    | None => path_sides y a = []
    end ->
    exists segs top bot, closed_loop F to_int fuel b path start (section_new F r x y) i = Some segs /\ Permutation segs (top ++ bot) /\ Forall proper segs /\
      route (shifted r x0 y0 x0) (rev (map (left_back r) (path_sides y a))) (map travel top) (shifted r x y y) /\
      route (shifted_right r x y y) (map (right_side r) (path_sides y a)) (map travel bot) (shifted_right r x0 y0 x0).
  Proof.
    intros r start.
    assert (Last : forall x y a, path_sides y a = [] -> exists segs top bot, Some (sb_join F b (section_new F r x y) start) = Some segs /\ Permutation segs (top ++ bot) /\ Forall proper segs /\
      route (shifted r x0 y0 x0) (rev (map (left_back r) (path_sides y a))) (map travel top) (shifted r x y y) /\
      route (shifted_right r x y y) (map (right_side r) (path_sides y a)) (map travel bot) (shifted_right r x0 y0 x0)).
    { intros x y a E. rewrite E. destruct (J (section_new F r x y) start) as (top & bot & P & Wt & Wb & A). assert (At : Forall good top /\ Forall good bot) by (apply Forall_app; rewrite <- P; auto).
      exists (sb_join F b (section_new F r x y) start), top, bot. split; auto. split; auto. split; [eapply Forall_impl; [|exact A]; unfold good; tauto|].
      cbn [map rev route]. split; (split; [assumption|apply good_moves, At]). }
    induction fuel as [|fuel IH]; intros x y [i|] a Hi; cbn [closed_loop]; auto.
    - destruct Hi as (L & p & Hp & _). assert (i < length path)%nat by (apply nth_error_Some; congruence). lia.
    - destruct Hi as (Lf & p & Hp & Hs). rewrite Hp. cbv zeta. change (s_b F (section_new F r x y)) with y. set (s0 := section_new F r x y). fold r. set (si := section_new F r y p).
      destruct (IH y p (next_unique_point F to_int i (S i) path) (skipn (S i) path)) as (w & top & bot & Hr & P & A & Wt & Wb).
      { pose proof (next_sides i (S i) path p Hp) as N. destruct (next_unique_point F to_int i (S i) path) as [k|]; auto.
        destruct N as (p' & Lk & Hn & Hs'). split; [lia|]. exists p'. auto. }
      fold si in Hr. rewrite Hr. cbn [option_map]. destruct (J s0 si) as (top1 & bot1 & P1 & Wt1 & Wb1 & A1). assert (At : Forall good top1 /\ Forall good bot1) by (apply Forall_app; rewrite <- P1; auto).
      exists (sb_join F b s0 si ++ add_section F to_int si ++ w), (top ++ [bold_ab (to_int (s_btop F si)) (to_int (s_atop F si))] ++ top1), (bot1 ++ [bold_ab (to_int (s_abot F si)) (to_int (s_bbot F si))] ++ bot).
      split; auto. split; [|split; [|split]].
      + rewrite P1, P. unfold add_section. set (u := bold_ab (to_int (s_btop F si)) _). set (v := bold_ab (to_int (s_abot F si)) _).
        apply (Permutation_trans (l' := (top1 ++ [u] ++ top) ++ (bot1 ++ [v] ++ bot))).
        * rewrite <- !app_assoc. apply Permutation_app_head. rewrite (Permutation_app_swap_app bot1 [u; v]). cbn [app]. constructor.
          rewrite (Permutation_app_swap_app bot1 top). change (v :: top ++ bot1 ++ bot) with ([v] ++ top ++ bot1 ++ bot). rewrite (Permutation_app_swap_app [v] top). apply Permutation_app_head.
          cbn [app]. apply Permutation_middle.
        * apply Permutation_app_tail. rewrite Permutation_app_comm, <- app_assoc. apply (Permutation_app_swap_app [u] top).
      + apply Forall_app. split; [eapply Forall_impl; [|exact A1]; unfold good; tauto|]. repeat (apply Forall_cons; [apply proper_bold|]); auto.
      + rewrite Hs. cbn [map rev]. rewrite map_app. eapply route_app; [exact Wt|]. unfold left_back at 1, shifted_side. cbn [fst snd route].
        exists [], (map travel top1). cbn [map app]. rewrite travel_bold. split; [reflexivity|]. split; [reflexivity|]. split; [constructor|]. split; [exact Wt1|apply good_moves, At].
      + rewrite Hs. cbn [map route]. unfold right_side at 1. cbn [fst snd]. exists (map travel bot1), (map travel bot). rewrite !map_app. cbn [map app]. rewrite travel_bold.
        split; [reflexivity|]. split; [exact Wb1|]. split; [apply good_moves, At|exact Wb].
  Qed.
  Lemma closed_spec b path : sjoin_ok (sb_join F b) -> exists segs, closed_segments F to_int b path = Some segs /\ Forall proper segs /\
    let r := sb_radius F b in
    match ring_sides path with
    | [] => segs = []
    | (x, y) :: _ =>
        exists top bot, Permutation segs (top ++ bot) /\
          route (shifted_right r x y x) (map (right_side r) (ring_sides path)) (map travel bot) (shifted_right r x y x) /\
          route (shifted r x y x) (rev (map (left_back r) (ring_sides path))) (map travel top) (shifted r x y x)
    end.
  Proof.
    intro J. unfold closed_segments. destruct (Nat.ltb_spec (length path) 2) as [L|L]; [exists []; rewrite short_sides by auto; split; [|split]; auto; reflexivity|].
    destruct path as [|q0 path0]; [cbn in L; lia|]. set (path := q0 :: path0) in *. assert (Hne : path <> []) by discriminate.
    pose proof (last_nth path q0 Hne) as H0. rewrite H0.
    pose proof (next_sides (length path - 1) 0 path _ H0) as N. cbn [skipn] in N. change (ring_sides path) with (path_sides (last path q0) path).
    destruct (next_unique_point F to_int (length path - 1) 0 path) as [i1|]; [|exists []; rewrite N; split; [|split]; auto; reflexivity].
    destruct N as (p1 & Li & H1 & Hs). rewrite H1, Hs. set (p0 := last path q0) in *. cbv zeta. set (r := sb_radius F b).
    set (start := section_new F r p0 p1).
    destruct (closed_loop_spec b path p0 p1 J (length path) p0 p1 (next_unique_point F to_int i1 (S i1) path) (skipn (S i1) path)) as (w & top & bot & Hr & P & A & Wt & Wb).
    { pose proof (next_sides i1 (S i1) path p1 H1) as N. destruct (next_unique_point F to_int i1 (S i1) path) as [k|]; auto.
      destruct N as (p' & Lk & Hn & Hs'). split; [lia|]. exists p'. auto. }
    fold r in Hr, Wt, Wb. fold start in Hr. rewrite Hr. cbn [option_map]. eexists. split; [reflexivity|]. split; [repeat (apply Forall_cons; [apply proper_bold|]); auto|].
    exists (top ++ [bold_ab (to_int (s_btop F start)) (to_int (s_atop F start))]), (bold_ab (to_int (s_abot F start)) (to_int (s_bbot F start)) :: bot).
    split; [|split].
    - unfold add_section. rewrite P. rewrite <- app_assoc. cbn [app]. rewrite <- !Permutation_middle. reflexivity.
    - cbn [map route]. unfold right_side at 1. cbn [fst snd]. exists [], (map travel bot). rewrite travel_bold. split; [reflexivity|]. split; [reflexivity|]. split; auto.
    - cbn [map rev]. rewrite map_app. eapply route_app; [exact Wt|]. cbn [map]. rewrite travel_bold. apply route_side.
  Qed.
End Walks.
