(** * The generated segments of [outline] and [stroke], side by side and corner by corner. *)
From Verif Require Import Base Spec ModelSegm SegmProofs ModelMesh MeshProofs.
Open Scope Z_scope.

Section Strip.
  Variable F : FloatOps.
  Variable to_int : fp F -> pt.
  Notation side := (fp F * fp F)%type.
  Section Generic.
    Context {S : Type}.
    Variables (sec : side -> S) (add : S -> list (segment cntO)) (join : S -> S -> list (segment cntO)).
    Fixpoint strip (e : side) (rest : list side) : list (segment cntO) :=
      add (sec e) ++ match rest with [] => [] | f :: r => join (sec e) (sec f) ++ strip f r end.
    Definition ring (sides : list side) : list (segment cntO) :=
      match sides with [] => [] | e :: r => strip e r ++ join (sec (last r e)) (sec e) end.
  End Generic.
  (** [f] follows [e] in the list; in the list taken as a ring *)
  Definition follows (sides : list side) (e f : side) : Prop := exists l m, sides = l ++ e :: f :: m.
  Definition follows_ring (sides : list side) (e f : side) : Prop := follows sides e f \/ (exists r, sides = f :: r /\ e = last r f).

  Lemma strip_in {S} (sec : side -> S) add join s : forall rest e, In s (strip sec add join e rest) ->
    (exists f, In f (e :: rest) /\ In s (add (sec f))) \/ (exists f g, follows (e :: rest) f g /\ In s (join (sec f) (sec g))).
  Proof.
    induction rest as [|f r IH]; intros e H; cbn [strip] in H; apply in_app_or in H as [H|H].
    - left. exists e. simpl. auto.
    - destruct H.
    - left. exists e. simpl. auto.
    - apply in_app_or in H as [H|H]; [right; exists e, f; split; auto; exists [], r; reflexivity|].
      destruct (IH f H) as [(g & I & G)|(g & h & (l & m & E) & G)].
      + left. exists g. split; auto. right. exact I.
      + right. exists g, h. split; auto. exists (e :: l), m. rewrite E. reflexivity.
  Qed.
  Lemma ring_in {S} (sec : side -> S) add join s sides : In s (ring sec add join sides) ->
    (exists f, In f sides /\ In s (add (sec f))) \/ (exists f g, follows_ring sides f g /\ In s (join (sec f) (sec g))).
  Proof.
    unfold ring. destruct sides as [|e r]; [intros []|]. intro H. apply in_app_or in H as [H|H].
    - apply strip_in in H as [H|(f & g & L & H)]; [left; auto|]. right. exists f, g. split; auto. left. exact L.
    - right. exists (last r e), e. split; auto. right. exists r. auto.
  Qed.
  Lemma last_ne {A} (r : list A) a b : r <> [] -> last r a = last r b.
  Proof. induction r as [|c [|d r] IH]; intro N; [congruence|reflexivity|]. apply IH. discriminate. Qed.

  Notation osec radius := (fun e => osection_new F radius (fst e) (snd e)).
  Notation sec radius := (fun e => section_new F radius (fst e) (snd e)).

  Lemma outline_loop_strip radius join path start : forall fuel x y i a,
    match i with
    | Some k => (length path <= fuel + k)%nat /\ exists p, nth_error path k = Some p /\ path_sides F to_int y a = (y, p) :: path_sides F to_int p (skipn (S k) path)
    | None => path_sides F to_int y a = []
    end ->
    outline_loop F to_int fuel radius join path start (osection_new F radius x y) i =
      Some (match path_sides F to_int y a with [] => [] | f :: r => join (osection_new F radius x y) (osec radius f) ++ strip (osec radius) (o_add_section F to_int) join f r end
            ++ join (osec radius (last (path_sides F to_int y a) (x, y))) start).
  Proof.
    induction fuel as [|fuel IH]; intros x y [i|] a Hi; cbn [outline_loop]; try (rewrite Hi; reflexivity).
    - destruct Hi as (L & p & Hp & _). assert (i < length path)%nat by (apply nth_error_Some; congruence). lia.
    - destruct Hi as (Lf & p & Hp & Hs). rewrite Hp. cbn [os_b osection_new]. rewrite (IH y p _ (skipn (S i) path)).
      + rewrite Hs. cbn [option_map fst snd]. f_equal. rewrite <- !app_assoc. f_equal. destruct (path_sides F to_int p (skipn (S i) path)) as [|g r]; [reflexivity|].
        cbn [strip fst snd app]. rewrite <- !app_assoc. do 3 f_equal.
        change (last ((y, p) :: g :: r) (x, y)) with (last (g :: r) (x, y)). rewrite (last_ne (g :: r) (y, p) (x, y)) by discriminate. reflexivity.
      + pose proof (next_sides F to_int i (S i) path p Hp) as N. destruct (next_unique_point F to_int i (S i) path) as [k|]; auto.
        destruct N as (p' & Lk & Hn & Hs'). split; [lia|]. exists p'. auto.
  Qed.
  Lemma outline_ring radius join path : outline_build F to_int radius join path = Some (ring (osec radius) (o_add_section F to_int) join (ring_sides F to_int path)).
  Proof.
    unfold outline_build. destruct (Nat.ltb_spec (length path) 2) as [L|L]; [rewrite short_sides by auto; reflexivity|].
    destruct path as [|q0 path0]; [cbn in L; lia|]. set (path := q0 :: path0) in *. assert (Hne : path <> []) by discriminate.
    pose proof (last_nth path q0 Hne) as H0. rewrite H0.
    pose proof (next_sides F to_int (length path - 1) 0 path _ H0) as N. change (skipn 0 path) with path in N. change (ring_sides F to_int path) with (path_sides F to_int (last path q0) path).
    destruct (next_unique_point F to_int (length path - 1) 0 path) as [i1|]; [|rewrite N; reflexivity].
    destruct N as (p1 & Li & H1 & Hs). rewrite H1, Hs. set (p0 := last path q0) in *. cbv zeta.
    rewrite (outline_loop_strip radius join path _ (length path) p0 p1 _ (skipn (S i1) path)).
    - cbn [option_map ring]. f_equal. destruct (path_sides F to_int p1 (skipn (S i1) path)) as [|g r]; [reflexivity|].
      cbn [strip fst snd]. rewrite <- !app_assoc. reflexivity.
    - pose proof (next_sides F to_int i1 (S i1) path p1 H1) as N. destruct (next_unique_point F to_int i1 (S i1) path) as [k|]; auto.
      destruct N as (p' & Lk & Hn & Hs'). split; [lia|]. exists p'. auto.
  Qed.

  Lemma closed_loop_strip b path start : let radius := sb_radius F b in forall fuel x y i a,
    match i with
    | Some k => (length path <= fuel + k)%nat /\ exists p, nth_error path k = Some p /\ path_sides F to_int y a = (y, p) :: path_sides F to_int p (skipn (S k) path)
    | None => path_sides F to_int y a = []
    end ->
    closed_loop F to_int fuel b path start (section_new F radius x y) i =
      Some (match path_sides F to_int y a with [] => [] | f :: r => sb_join F b (section_new F radius x y) (sec radius f) ++ strip (sec radius) (add_section F to_int) (sb_join F b) f r end
            ++ sb_join F b (sec radius (last (path_sides F to_int y a) (x, y))) start).
  Proof.
    intro radius. induction fuel as [|fuel IH]; intros x y [i|] a Hi; cbn [closed_loop]; try (rewrite Hi; reflexivity).
    - destruct Hi as (L & p & Hp & _). assert (i < length path)%nat by (apply nth_error_Some; congruence). lia.
    - destruct Hi as (Lf & p & Hp & Hs). rewrite Hp. cbv zeta. change (s_b F (section_new F radius x y)) with y. rewrite (IH y p _ (skipn (S i) path)).
      + rewrite Hs. cbn [option_map fst snd]. f_equal. rewrite <- !app_assoc. f_equal. destruct (path_sides F to_int p (skipn (S i) path)) as [|g r]; [reflexivity|].
        cbn [strip fst snd]. rewrite <- !app_assoc. do 3 f_equal.
        change (last ((y, p) :: g :: r) (x, y)) with (last (g :: r) (x, y)). rewrite (last_ne (g :: r) (y, p) (x, y)) by discriminate. reflexivity.
      + pose proof (next_sides F to_int i (S i) path p Hp) as N. destruct (next_unique_point F to_int i (S i) path) as [k|]; auto.
        destruct N as (p' & Lk & Hn & Hs'). split; [lia|]. exists p'. auto.
  Qed.
  Lemma closed_ring b path : closed_segments F to_int b path = Some (ring (sec (sb_radius F b)) (add_section F to_int) (sb_join F b) (ring_sides F to_int path)).
  Proof.
    unfold closed_segments. destruct (Nat.ltb_spec (length path) 2) as [L|L]; [rewrite short_sides by auto; reflexivity|].
    destruct path as [|q0 path0]; [cbn in L; lia|]. set (path := q0 :: path0) in *. assert (Hne : path <> []) by discriminate.
    pose proof (last_nth path q0 Hne) as H0. rewrite H0.
    pose proof (next_sides F to_int (length path - 1) 0 path _ H0) as N. change (skipn 0 path) with path in N. change (ring_sides F to_int path) with (path_sides F to_int (last path q0) path).
    destruct (next_unique_point F to_int (length path - 1) 0 path) as [i1|]; [|rewrite N; reflexivity].
    destruct N as (p1 & Li & H1 & Hs). rewrite H1, Hs. set (p0 := last path q0) in *. cbv zeta.
    rewrite (closed_loop_strip b path _ (length path) p0 p1 _ (skipn (S i1) path)).
    - cbn [option_map ring]. f_equal. destruct (path_sides F to_int p1 (skipn (S i1) path)) as [|g r]; [reflexivity|].
      cbn [strip fst snd]. rewrite <- !app_assoc. reflexivity.
    - pose proof (next_sides F to_int i1 (S i1) path p1 H1) as N. destruct (next_unique_point F to_int i1 (S i1) path) as [k|]; auto.
      destruct N as (p' & Lk & Hn & Hs'). split; [lia|]. exists p'. auto.
  Qed.
  Lemma open_loop_strip b : let radius := sb_radius F b in forall rest x y,
    open_loop F to_int b (section_new F radius x y) (to_int y) rest =
      match path_sides F to_int y rest with [] => [] | f :: r => sb_join F b (section_new F radius x y) (sec radius f) ++ strip (sec radius) (add_section F to_int) (sb_join F b) f r end
      ++ add_to_end F to_int (sb_end F b) (sec radius (last (path_sides F to_int y rest) (x, y))).
  Proof.
    intro radius. induction rest as [|p rest IH]; intros x y; cbn [open_loop path_sides]; [reflexivity|].
    destruct (pt_eqb (to_int p) (to_int y)); [apply IH|]. cbv zeta. change (s_b F (section_new F radius x y)) with y. rewrite IH. cbn [fst snd].
    rewrite <- !app_assoc. f_equal. destruct (path_sides F to_int p rest) as [|g r]; [reflexivity|].
    cbn [strip fst snd]. rewrite <- !app_assoc. do 3 f_equal.
    change (last ((y, p) :: g :: r) (x, y)) with (last (g :: r) (x, y)). rewrite (last_ne (g :: r) (y, p) (x, y)) by discriminate. reflexivity.
  Qed.
  Lemma open_strip b p0 rest : rest <> [] -> open_segments F to_int b (p0 :: rest) = Some (match path_sides F to_int p0 rest with
    | [] => []
    | e :: r => add_to_start F to_int (sb_start F b) (sec (sb_radius F b) e) ++ strip (sec (sb_radius F b)) (add_section F to_int) (sb_join F b) e r
                ++ add_to_end F to_int (sb_end F b) (sec (sb_radius F b) (last r e))
    end).
  Proof.
    intro N. unfold open_segments. destruct rest as [|p1 rest]; [congruence|]. pose proof (first_other_sides F to_int p0 (p1 :: rest)) as H.
    destruct (first_other F to_int (to_int p0) (p1 :: rest)) as [[p r]|]; rewrite H; [|reflexivity]. cbv zeta. rewrite open_loop_strip. cbn [fst snd]. do 2 f_equal.
    destruct (path_sides F to_int p r) as [|g r']; [reflexivity|]. cbn [strip fst snd]. rewrite <- !app_assoc. reflexivity.
  Qed.
  (** where the sides come from *)
  Lemma sides_in prev : forall path e, In e (path_sides F to_int prev path) -> In (fst e) (prev :: path) /\ In (snd e) path /\ to_int (fst e) <> to_int (snd e).
  Proof.
    intro path. revert prev. induction path as [|p r IH]; intros prev e H; [destruct H|]. cbn [path_sides] in H. destruct (pt_eqb _ _) eqn:E.
    - destruct (IH _ _ H) as (A & B & D). simpl in *. tauto.
    - destruct H as [<-|H]; [cbn; split; [auto|split; [auto|apply pt_eqb_neq in E; auto]]|]. destruct (IH _ _ H) as (A & B & D). simpl in *. tauto.
  Qed.
  Lemma ring_sides_in path e : In e (ring_sides F to_int path) -> In (fst e) path /\ In (snd e) path /\ to_int (fst e) <> to_int (snd e).
  Proof.
    unfold ring_sides. destruct path as [|q path]; [intros []|]. intro H. destruct (sides_in _ _ _ H) as (A & B & D). split; auto.
    destruct A as [A|A]; auto. rewrite <- A. destruct (exists_last (l := q :: path) ltac:(discriminate)) as (l & x & E). rewrite E, last_last. apply in_or_app. simpl; auto.
  Qed.
  Lemma sides_chain prev : forall path e f, follows (path_sides F to_int prev path) e f -> snd e = fst f.
  Proof.
    intro path. revert prev. induction path as [|p r IH]; intros prev e f (l & m & H); [destruct l; discriminate|]. cbn [path_sides] in H. destruct (pt_eqb _ _).
    - eapply IH. exists l, m. exact H.
    - destruct l as [|d l]; injection H as <- H; [|eapply IH; exists l, m; exact H]. clear IH. revert H. generalize p as prev'. induction r as [|q r IH]; intros prev'; cbn [path_sides]; [discriminate|].
      destruct (pt_eqb _ _); [apply IH|]. intro H. injection H as <- H. reflexivity.
  Qed.
  Lemma sides_end prev : forall path a, path <> [] -> to_int (snd (last (path_sides F to_int prev path) (a, prev))) = to_int (last path prev).
  Proof.
    intro path. revert prev. induction path as [|p r IH]; intros prev a N; [congruence|]. cbn [path_sides]. destruct (pt_eqb _ _) eqn:E.
    - apply pt_eqb_eq in E. destruct r as [|q r]; [cbn; auto|]. rewrite (IH prev a) by discriminate. reflexivity.
    - destruct r as [|q r]; [reflexivity|]. specialize (IH p prev ltac:(discriminate)). change (last (p :: q :: r) prev) with (last (q :: r) prev). rewrite (last_ne (q :: r) prev p), <- IH by discriminate.
      destruct (path_sides F to_int p (q :: r)) as [|g s]; [reflexivity|]. change (last ((prev, p) :: g :: s) (a, prev)) with (last (g :: s) (a, prev)). rewrite (last_ne (g :: s) _ (prev, p)) by discriminate. reflexivity.
  Qed.
  Lemma ring_chain path e f : (forall p q, In p path -> In q path -> to_int p = to_int q -> p = q) -> follows_ring (ring_sides F to_int path) e f -> snd e = fst f.
  Proof.
    intros G [H|(r & H & L)]; [unfold ring_sides in H; destruct path as [|q path]; [destruct H as (l & m & H); destruct l; discriminate|]; eapply sides_chain; eauto|].
    assert (If : In f (ring_sides F to_int path)) by (rewrite H; simpl; auto).
    assert (Ie : In e (ring_sides F to_int path)).
    { rewrite H, L. destruct r as [|g r]; [simpl; auto|]. right. destruct (exists_last (l := g :: r) ltac:(discriminate)) as (l & x & ->). rewrite last_last. apply in_or_app. simpl; auto. }
    apply ring_sides_in in If as (A & _ & _). apply ring_sides_in in Ie as (_ & B & _). apply G; auto.
    unfold ring_sides in H. destruct path as [|q path]; [discriminate|]. set (pth := q :: path) in *.
    pose proof (sides_end (last pth q) pth q ltac:(discriminate)) as X.
    assert (Fst : fst f = last pth q).
    { clear -H. revert H. generalize (last pth q) as prev. generalize pth as l. induction l as [|p l IH]; intros prev; cbn [path_sides]; [discriminate|]. destruct (pt_eqb _ _); [apply IH|]. intro H. injection H as <- _. reflexivity. }
    rewrite Fst. rewrite H in X. replace (last (f :: r) (q, last pth q)) with e in X.
    - rewrite X. f_equal. apply last_ne. discriminate.
    - rewrite L. destruct r as [|g r]; [reflexivity|]. change (last (f :: g :: r) (q, last pth q)) with (last (g :: r) (q, last pth q)). apply last_ne. discriminate.
  Qed.
End Strip.
