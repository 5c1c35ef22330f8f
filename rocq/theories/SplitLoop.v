(** * The splitting loop: invariants, planarity of the result, exact splitting. *)
From Verif Require Import Base Spec QLib ModelSegm SegmProofs MergeProofs PlanarGeo PlanarSum ModelFill FillProofs FillCorrect ModelCross CrossProofs CrossPoint MarksProofs ModelSplit CoreResults SplitProofs SplitPlanar SplitPass BinsProofs SplitApply.
Open Scope Z_scope.

Record inv {C} {WC : WindingCount C} {WL : WCLaws C} (segs : list (segment C)) : Prop := {
  inv_sorted : strict_sorted segs;
  inv_wf : Forall (fun s => wf_xseg (sx s)) segs;
  inv_ne : Forall (fun s => wc_not_empty (sc s) = true) segs;
  inv_ok : Forall (fun s => wc_ok (sc s)) segs;
  inv_bd : Forall (fun s => bounded (sx s)) segs }.

Lemma okB (l : list (segment cntB)) : Forall (fun s => wc_ok (sc s)) l.
Proof. apply Forall_forall. simpl. auto. Qed.
#[export] Hint Resolve okB : core.

Lemma inv_wf_sorted {C} {WC : WindingCount C} {WL : WCLaws C} (segs : list (segment C)) : inv segs -> wf_sorted (map sx segs).
Proof.
  intros [S W _ _ _]. split; [|apply Forall_map; auto].
  clear W. induction S as [|s l S IH F]; simpl; constructor; auto. apply Forall_map. auto.
Qed.

Lemma nth_map_sx {C} (segs : list (segment C)) i x : nth_error (map sx segs) i = Some x <->
  exists s, nth_error segs i = Some s /\ sx s = x.
Proof.
  rewrite nth_error_map. destruct (nth_error segs i) as [s|]; simpl; split.
  - intro H. injection H as <-. eauto.
  - intros (s' & H & <-). injection H as <-. auto.
  - discriminate.
  - intros (s' & H & _). discriminate.
Qed.

Lemma wf_sorted_nth xs i j s t : wf_sorted xs -> nth_error xs i = Some s -> nth_error xs j = Some t -> i <> j -> s <> t.
Proof.
  intros [S _] Hi Hj N ->. apply N.
  assert (ND : NoDup xs).
  { clear - S. induction S as [|x l S IH F]; constructor; auto. intro I. rewrite Forall_forall in F. eapply xseg_lt_irrefl; eauto. }
  apply (proj1 (NoDup_nth_error xs) ND); [|congruence]. apply nth_error_Some. congruence.
Qed.
Lemma wf_sorted_wf xs i s : wf_sorted xs -> nth_error xs i = Some s -> wf_xseg s.
Proof. intros [_ F] H. rewrite Forall_forall in F. apply F. eapply nth_error_In; eauto. Qed.

(** ** Properties of the marks of a pass *)
Section Marks.
  Variable xs : list xseg.
  Variable r : Z.
  Hypothesis W : wf_sorted xs.
  Hypothesis Hr : 1 <= r.

  Lemma pass_not_end k p : pass_mark xs r (k, p) -> exists s, nth_error xs k = Some s /\ p <> sa s /\ p <> sb s.
  Proof.
    intros (i & j & s & t & L & Hs & Ht & I).
    pose proof (wf_sorted_wf _ _ _ W Hs) as Ws. pose proof (wf_sorted_wf _ _ _ W Ht) as Wt.
    apply marks_not_ends in I; auto.
    destruct I as [(-> & A & B)|(-> & A & B)]; eauto.
  Qed.

  Lemma pass_origin k p : Forall bounded xs -> pass_mark xs r (k, p) ->
    exists s, In s xs /\ in_box s p.
  Proof.
    intros B (i & j & s & t & L & Hs & Ht & I).
    pose proof (wf_sorted_wf _ _ _ W Hs) as Ws. pose proof (wf_sorted_wf _ _ _ W Ht) as Wt.
    pose proof (nth_error_In _ _ Hs) as Is. pose proof (nth_error_In _ _ Ht) as It.
    apply marks_origin in I; auto. rewrite Forall_forall in B.
    destruct I as (_ & [-> |[-> |[-> |[-> |[P ->]]]]]).
    - exists s. split; auto. unfold in_box. lia.
    - exists s. split; auto. unfold in_box. lia.
    - exists t. split; auto. unfold in_box. lia.
    - exists t. split; auto. unfold in_box. lia.
    - exists s. split; auto. apply cross_point_near; auto.
  Qed.

  Lemma pass_sound i s p : ~ pass_round xs r -> nth_error xs i = Some s -> pass_mark xs r (i, p) ->
    inside_seg s (qof p) /\ exists j t, i <> j /\ nth_error xs j = Some t /\ on_seg t (qof p) /\ (colinear s t -> p = sa t \/ p = sb t).
  Proof.
    intros NR Hi (a & b & s1 & t1 & L & Hs & Ht & I).
    pose proof (wf_sorted_wf _ _ _ W Hs) as Ws. pose proof (wf_sorted_wf _ _ _ W Ht) as Wt.
    assert (R : snd (cross_marks a b s1 t1 r) = false).
    { destruct (snd (cross_marks a b s1 t1 r)) eqn:E; auto. exfalso. apply NR. exists a, b, s1, t1. auto. }
    pose proof (marks_sound a b s1 t1 r Ws Wt Hr i p R I) as S.
    pose proof (marks_origin a b s1 t1 r Ws Wt i p I) as [_ O].
    assert (PC : properly s1 t1 -> ~ colinear s1 t1).
    { intros P (C1 & C2 & C3 & C4). apply properly_ends in P. tauto. }
    destruct S as [(-> & A & B)|(-> & A & B)].
    - rewrite Hs in Hi. injection Hi as <-. split; auto. exists b, t1. split; [lia|]. split; auto. split; auto.
      intro CL. destruct (inside_not_end _ _ A) as [N1 N2]. destruct O as [O|[O|[O|[O|[O _]]]]]; try tauto.
    - rewrite Ht in Hi. injection Hi as <-. split; auto. exists a, s1. split; [lia|]. split; auto. split; auto.
      intro CL. destruct (inside_not_end _ _ A) as [N1 N2].
      destruct O as [O|[O|[O|[O|[O _]]]]]; try tauto. exfalso. apply (PC O). apply colinear_sym. auto.
  Qed.

  Lemma pass_complete i j s t q : ~ pass_round xs r -> i <> j -> nth_error xs i = Some s -> nth_error xs j = Some t ->
    on_seg s q -> on_seg t q -> inside_seg s q -> (~ colinear s t \/ is_end t q) ->
    exists p, q_is q p /\ pass_mark xs r (i, p).
  Proof.
    intros NR N Hs Ht Os Ot In C.
    pose proof (wf_sorted_wf _ _ _ W Hs) as Ws. pose proof (wf_sorted_wf _ _ _ W Ht) as Wt.
    destruct (lt_dec i j) as [L|L].
    - assert (R : snd (cross_marks i j s t r) = false).
      { destruct (snd (cross_marks i j s t r)) eqn:E; auto. exfalso. apply NR. exists i, j, s, t. auto. }
      destruct (marks_complete i j s t r Ws Wt Hr q R Os Ot) as [K _].
      destruct (K C In) as (p & Hp & Ip). exists p. split; auto. exists i, j, s, t. auto.
    - assert (L' : (j < i)%nat) by lia.
      assert (R : snd (cross_marks j i t s r) = false).
      { destruct (snd (cross_marks j i t s r)) eqn:E; auto. exfalso. apply NR. exists j, i, t, s. auto. }
      destruct (marks_complete j i t s r Wt Ws Hr q R Ot Os) as [_ K].
      destruct K as (p & Hp & Ip); auto.
      { destruct C as [C|C]; auto. left. intro Z. apply C, colinear_sym. auto. }
      exists p. split; auto. exists j, i, t, s. auto.
  Qed.

  Lemma pass_none : (forall m, ~ pass_mark xs r m) -> planar xs.
  Proof.
    intros H s t Is It N q Os Ot.
    apply In_nth_error in Is as [i Hs]. apply In_nth_error in It as [j Ht].
    pose proof (wf_sorted_wf _ _ _ W Hs) as Ws. pose proof (wf_sorted_wf _ _ _ W Ht) as Wt.
    destruct (lt_eq_lt_dec i j) as [[L| ->]|L]; [|congruence|].
    - assert (E : fst (cross_marks i j s t r) = []).
      { destruct (fst (cross_marks i j s t r)) as [|m l] eqn:E; auto. exfalso. apply (H m). exists i, j, s, t. rewrite E. simpl; auto. }
      apply marks_exact in E; auto; lia.
    - assert (E : fst (cross_marks j i t s r) = []).
      { destruct (fst (cross_marks j i t s r)) as [|m l] eqn:E; auto. exfalso. apply (H m). exists j, i, t, s. rewrite E. simpl; auto. }
      apply marks_exact in E; auto; try lia. destruct (E q Ot Os). auto.
  Qed.
End Marks.

(** ** Winding numbers as sums over edges *)
Lemma under_wf x q : wf_xseg x -> bz (under x q) = edge_wind q (sa x, sb x).
Proof.
  intro Wx. unfold edge_wind. simpl. replace (XS (sa x) (sb x)) with x by (destruct x; auto).
  destruct (under x q) eqn:E; auto.
  destruct (under (XS (sb x) (sa x)) q) eqn:E2; auto. exfalso.
  unfold under, spans in E2. apply andb_true_iff in E2 as [E2 _]. apply andb_true_iff in E2 as [A B]. simpl in *.
  apply Qle_bool_iff in A. unfold Qltb in B. apply negb_true_iff in B.
  assert (K : ~ (qx (sa x) <= fst q)%Q) by (intro K; apply Qle_bool_iff in K; congruence).
  apply K. eapply Qle_trans; [|exact A]. unfold qx. rewrite <- Zle_Qle. unfold wf_xseg, pt_lt in Wx. lia.
Qed.

Lemma wind_segval {C} (f : C -> Z) l q : Forall (fun s : segment C => wf_xseg (sx s)) l ->
  wind (chain_of f l) q = zsum (segval f (fun a b => edge_wind q (a, b))) l.
Proof.
  intro F. rewrite wind_lin. unfold lin. apply zsum_ext. intros s I. rewrite Forall_forall in F. unfold segval.
  rewrite under_wf by auto. reflexivity.
Qed.
Lemma boundary_segval {C} (f : C -> Z) (l : list (segment C)) v : boundary (chain_of f l) v = zsum (segval f (bd_edge v)) l.
Proof. rewrite boundary_chain_of. reflexivity. Qed.

Lemma on_seg_cross x y z s : wf_xseg s -> cross3 (sa s) (sb s) x = 0 -> cross3 (sa s) (sb s) y = 0 -> cross3 (sa s) (sb s) z = 0 -> cross3 x y z = 0.
Proof.
  intros Wt Hx Hy Hz.
  assert (D : px (sb s) - px (sa s) <> 0 \/ py (sb s) - py (sa s) <> 0) by (unfold wf_xseg, pt_lt in Wt; lia).
  unfold cross3 in *.
  set (dx := px (sb s) - px (sa s)) in *. set (dy := py (sb s) - py (sa s)) in *.
  set (ax := px (sa s)) in *. set (ay := py (sa s)) in *.
  assert (E1 : dx * ((px y - px x) * (py z - py x) - (py y - py x) * (px z - px x)) = 0).
  { replace (dx * ((px y - px x) * (py z - py x) - (py y - py x) * (px z - px x))) with
      ((px y - px x) * ((dx * (py z - ay) - dy * (px z - ax)) - (dx * (py x - ay) - dy * (px x - ax))) -
       (px z - px x) * ((dx * (py y - ay) - dy * (px y - ax)) - (dx * (py x - ay) - dy * (px x - ax)))) by ring.
    rewrite Hx, Hy, Hz. ring. }
  assert (E2 : dy * ((px y - px x) * (py z - py x) - (py y - py x) * (px z - px x)) = 0).
  { replace (dy * ((px y - px x) * (py z - py x) - (py y - py x) * (px z - px x))) with
      ((py y - py x) * ((dx * (py z - ay) - dy * (px z - ax)) - (dx * (py x - ay) - dy * (px x - ax))) -
       (py z - py x) * ((dx * (py y - ay) - dy * (px y - ax)) - (dx * (py x - ay) - dy * (px x - ax)))) by ring.
    rewrite Hx, Hy, Hz. ring. }
  destruct D as [D|D]; [apply Z.mul_eq_0 in E1|apply Z.mul_eq_0 in E2]; tauto.
Qed.

(** ** One application *)
Section Step.
  Context {C : Type} {WC : WindingCount C} {WL : WCLaws C}.
  Variable segs : list (segment C).
  Variable ms : list mark.

  (** C12: whatever the marks *)
  Theorem pieces_boundary f v : (forall c, f (wc_invert c) = - f c) ->
    boundary (chain_of f (split_pieces segs ms)) v = boundary (chain_of f segs) v.
  Proof.
    intro Hf. rewrite !boundary_segval.
    apply (pieces_sum segs ms f Hf (bd_edge v)) with (P := fun _ _ => True); auto.
    - intros a b. unfold bd_edge. ring.
    - intros. unfold bd_edge. ring.
  Qed.

  Hypothesis Wf : Forall (fun s => wf_xseg (sx s)) segs.

  (** C11 *)
  Theorem pieces_wf : (forall i p s, In (i, p) ms -> nth_error segs i = Some s -> p <> sa (sx s) /\ p <> sb (sx s)) ->
    Forall (fun s => wf_xseg (sx s)) (split_pieces segs ms).
  Proof.
    intro H. apply Forall_forall. intros e I. apply in_pieces in I as (i & s & Hs & I).
    pose proof (proj1 (Forall_forall _ _) Wf s (nth_error_In _ _ Hs)) as Ws. cbv beta in Ws.
    destruct (lookup _ i) as [ps|] eqn:L; simpl in I.
    - apply lookup_spec in L as (_ & L & ND & _).
      assert (F : Forall (fun e : segment C => wf_xseg (sx e)) (chop (sc s) (sa (sx s)) ps (sb (sx s)))).
      { apply chop_wf. constructor.
        - rewrite in_app_iff. intros [A|[A|[]]].
          + apply L in A. apply (H _ _ _ A) in Hs. tauto.
          + unfold wf_xseg in Ws. rewrite A in Ws. eapply pt_lt_irrefl; eauto.
        - apply (Permutation_NoDup (l := sb (sx s) :: ps)); [rewrite Permutation_app_comm; reflexivity|].
          constructor; auto. intro A. apply L in A. apply (H _ _ _ A) in Hs. tauto. }
      rewrite Forall_forall in F. auto.
    - destruct I as [<-|[]]. auto.
  Qed.

  (** C13 *)
  Theorem pieces_wind f q : (forall c, f (wc_invert c) = - f c) ->
    (forall i p s, In (i, p) ms -> nth_error segs i = Some s -> cross3 (sa (sx s)) (sb (sx s)) p = 0 /\ p <> sa (sx s) /\ p <> sb (sx s)) ->
    wind (chain_of f (split_pieces segs ms)) q = wind (chain_of f segs) q.
  Proof.
    intros Hf H.
    rewrite !wind_segval; auto.
    - apply (pieces_sum segs ms f Hf (fun a b => edge_wind q (a, b))) with
        (P := fun i p => forall s, nth_error segs i = Some s -> cross3 (sa (sx s)) (sb (sx s)) p = 0).
      + intros; apply edge_wind_anti.
      + intros i s Hs. split; intros s' Hs'; rewrite Hs in Hs'; injection Hs' as <-; unfold cross3; ring.
      + intros i p I s Hs. apply (H i p s I Hs).
      + intros i s x y z Hs Hx Hy Hz. apply edge_wind_collinear.
        apply (on_seg_cross x y z (sx s)); auto. rewrite Forall_forall in Wf. apply Wf. eapply nth_error_In; eauto.
    - apply pieces_wf. intros i p s I Hs. apply (H i p s I Hs).
  Qed.
End Step.

(** ** Exact marks: the order along the segment is the point order *)
Lemma SS_app {A} (R : A -> A -> Prop) l m : StronglySorted R l -> StronglySorted R m ->
  (forall x y, In x l -> In y m -> R x y) -> StronglySorted R (l ++ m).
Proof.
  intros Sl Sm H. induction Sl as [|x l Sl IH F]; simpl; auto. constructor.
  - apply IH. intros; apply H; simpl; auto.
  - apply Forall_app. split; auto. apply Forall_forall. intros; apply H; simpl; auto.
Qed.

Lemma order_groups_singles s gs : Forall (fun g => (length g <= 1)%nat) gs -> forall y0, order_groups y0 s gs = concat gs.
Proof.
  induction gs as [|g gs IH]; intros F y0; simpl; auto.
  pose proof (Forall_inv F) as F1. pose proof (Forall_inv_tail F) as F2.
  rewrite IH by auto. f_equal. destruct (_ >? _); auto. destruct g as [|x [|y g]]; simpl in *; auto; lia.
Qed.

Lemma cross3_x s p q : px (sa s) <> px (sb s) -> cross3 (sa s) (sb s) p = 0 -> cross3 (sa s) (sb s) q = 0 -> px p = px q -> p = q.
Proof.
  intros N Hp Hq E. apply pt_ext; auto. unfold cross3 in *. rewrite E in Hp. nia.
Qed.

Lemma sort_sub_marks_exact s qs : wf_xseg s -> StronglySorted pt_lt qs -> (forall p, In p qs -> cross3 (sa s) (sb s) p = 0) ->
  sort_sub_marks s qs = qs.
Proof.
  intros Ws S H. unfold sort_sub_marks. unfold wf_xseg, pt_lt in Ws.
  destruct (Z.eq_dec (px (sa s)) (px (sb s))) as [E|N].
  - (* vertical *)
    assert (X : forall p, In p qs -> px p = px (sa s)).
    { intros p I. specialize (H p I). unfold cross3 in H. rewrite <- E in H. nia. }
    assert (R : qs = [] \/ runs (fun p q => px p =? px q) qs = [qs]).
    { clear S H Ws. induction qs as [|p qs IH]; auto. right. simpl.
      destruct IH as [-> | ->]; auto. { intros; apply X; simpl; auto. }
      destruct qs as [|q qs]; auto.
      rewrite (X p), (X q) by (simpl; auto). rewrite Z.eqb_refl. reflexivity. }
    destruct R as [-> | ->]; auto. simpl. rewrite app_nil_r. replace (py (sa s) >? py (sb s)) with false by lia. reflexivity.
  - rewrite order_groups_singles; [apply runs_concat|].
    assert (D : StronglySorted (fun p q => px p <> px q) qs).
    { apply (SS_impl_in pt_lt); auto. intros p q Ip Iq L E. rewrite (cross3_x s p q) in L by auto. eapply pt_lt_irrefl; eauto. }
    clear - D. induction D as [|p qs D IH F]; simpl; [constructor|].
    destruct qs as [|q qs]; [repeat constructor|].
    pose proof (Forall_inv F) as F1. cbv beta in F1.
    destruct (runs (fun p q => px p =? px q) (q :: qs)) as [|[|x g] gs] eqn:R; try (repeat constructor).
    assert (x = q) as ->.
    { pose proof (runs_concat (fun p q => px p =? px q) (q :: qs)) as RC. rewrite R in RC. simpl in RC. congruence. }
    replace (px p =? px q) with false by lia. constructor; [simpl; lia|auto].
Qed.

Section Exact.
  Context {C : Type} {WC : WindingCount C} {WL : WCLaws C}.
  Variable segs : list (segment C).
  Variable ms : list mark.
  Hypothesis Wf : Forall (fun s => wf_xseg (sx s)) segs.
  Hypothesis In_marks : forall i p s, In (i, p) ms -> nth_error segs i = Some s -> inside_seg (sx s) (qof p).

  Lemma inside_cross s p : on_seg s (qof p) -> cross3 (sa s) (sb s) p = 0.
  Proof.
    intros (t & T & X & Y). simpl in X, Y. unfold cross3.
    apply (proj1 (qz_eq _ 0)). unfold qx, qy in *. rewrite !qz_sub, !inject_Z_mult, !qz_sub. change (inject_Z 0) with 0%Q. rewrite X, Y. ring.
  Qed.
  Lemma inside_between s p : wf_xseg s -> inside_seg s (qof p) -> pt_lt (sa s) p /\ pt_lt p (sb s).
  Proof.
    intros Ws I. destruct (inside_not_end _ _ I) as [N1 N2]. destruct I as [O _].
    apply on_seg_range in O as [A B]; auto. apply pt_of_qle in A, B.
    split; apply pt_leb_lt; auto.
  Qed.

  Definition consec {A} (u w : A) (L : list A) : Prop := exists L1 L2, L = L1 ++ u :: w :: L2.

  Lemma chop_consec (c : C) qs : forall p b e, StronglySorted pt_lt (p :: qs ++ [b]) ->
    In e (chop c p qs b) -> exists u w, e = Seg (XS u w) c /\ consec u w (p :: qs ++ [b]) /\ pt_lt u w.
  Proof.
    assert (K : forall a b, pt_lt a b -> create_and_validate a b c = Seg (XS a b) c).
    { intros a b L. unfold create_and_validate. apply pt_ltb_lt in L. rewrite L. auto. }
    induction qs as [|m qs IH]; intros p b e S I; simpl in *; inversion S as [|? ? S1 S2]; subst.
    - pose proof (Forall_inv S2) as L. destruct I as [<-|[]]. rewrite K by auto. exists p, b. split; auto. split; auto. exists [], []; auto.
    - pose proof (Forall_inv S2) as L. destruct I as [<-|I].
      + rewrite K by auto. exists p, m. split; auto. split; auto. exists [], (qs ++ [b]). auto.
      + apply IH in I; auto. destruct I as (u & w & -> & (L1 & L2 & E) & Lt). exists u, w. split; auto. split; auto.
        exists (p :: L1), L2. simpl. rewrite <- E. auto.
  Qed.

  Lemma consec_gap L u w v : StronglySorted pt_lt L -> consec u w L -> In v L -> pt_leb v u = true \/ pt_leb w v = true.
  Proof.
    intros S (L1 & L2 & ->) I. apply in_app_iff in I as [I|[<-|[<-|I]]].
    - left. apply pt_leb_alt2. left. clear - S I. induction L1 as [|x L1 IH]; [destruct I|]. simpl in S. inversion S as [|? ? S1 S2]; subst.
      destruct I as [<-|I]; auto. rewrite Forall_forall in S2. apply S2. apply in_app_iff. simpl; auto.
    - left. apply pt_leb_refl.
    - right. apply pt_leb_refl.
    - right. apply pt_leb_alt2. left. apply SS_app_r in S. inversion S as [|? ? S1 S2]; subst. inversion S1 as [|? ? S3 S4]; subst.
      rewrite Forall_forall in S4. auto.
  Qed.

  Lemma exact_pieces e : In e (split_pieces segs ms) ->
    exists i s, nth_error segs i = Some s /\ piece ms i (sx s) (sx e) /\ sc e = sc s.
  Proof.
    intro I. apply in_pieces in I as (i & s & Hs & I). exists i, s. split; auto.
    pose proof (proj1 (Forall_forall _ _) Wf s (nth_error_In _ _ Hs)) as Ws. cbv beta in Ws.
    destruct (lookup _ i) as [ps|] eqn:L; simpl in I.
    - apply lookup_spec in L as (_ & L & ND & (qs & E & S)).
      assert (N : nth i (map sx segs) (XS (Pt 0 0) (Pt 0 0)) = sx s).
      { apply nth_error_nth. rewrite nth_error_map, Hs. reflexivity. }
      rewrite N in E.
      assert (HQ : forall p, In p qs -> In (i, p) ms).
      { intros p Hp. apply L. rewrite E. apply (Permutation_in _ (Permutation_sym (sort_sub_marks_perm _ _))). auto. }
      rewrite sort_sub_marks_exact in E; auto.
      2:{ intros p Hp. apply inside_cross. apply (In_marks i p s); auto. }
      subst qs.
      assert (SS : StronglySorted pt_lt (sa (sx s) :: ps ++ [sb (sx s)])).
      { change (sa (sx s) :: ps ++ [sb (sx s)]) with ([sa (sx s)] ++ (ps ++ [sb (sx s)])). apply SS_app; [repeat constructor| |].
        - apply SS_app; auto; [repeat constructor|]. intros x y Hx [<-|[]]. apply inside_between; auto. apply (In_marks i x s); auto.
        - intros x y [<-|[]] Hy. apply in_app_iff in Hy as [Hy|[<-|[]]]; auto. apply inside_between; auto. apply (In_marks i y s); auto. }
      pose proof (chop_consec (sc s) ps _ _ e SS I) as (u & w & -> & CN & Lt). simpl. split; auto.
      assert (V : forall v, In v (sa (sx s) :: ps ++ [sb (sx s)]) <-> vert ms i (sx s) v).
      { intro v. unfold vert. simpl. rewrite in_app_iff, L. simpl. intuition auto. }
      unfold piece. simpl. split; [exact Lt|]. split; [|split].
      + apply V. destruct CN as (L1 & L2 & ->). apply in_app_iff. simpl; auto.
      + apply V. destruct CN as (L1 & L2 & ->). apply in_app_iff. simpl; auto.
      + intros v Hv. apply V in Hv. eapply consec_gap; eauto.
    - destruct I as [<-|[]]. split; auto. unfold piece, vert. split; auto. split; auto. split; auto.
      intros v [-> |[-> |Hv]].
      + left. apply pt_leb_refl.
      + right. apply pt_leb_refl.
      + exfalso. eapply lookup_none_spec; eauto.
  Qed.
End Exact.

(** ** Rounds *)
Definition wf_boundary {C} {WC : WindingCount C} (a b : list (segment C)) : Prop :=
  forall f, (forall x y, f (wc_add x y) = f x + f y) -> (forall c, wc_not_empty c = false -> f c = 0) ->
    (forall c, f (wc_invert c) = - f c) -> forall v, boundary (chain_of f b) v = boundary (chain_of f a) v.

Section Round.
  Context {C : Type} {WC : WindingCount C} {WL : WCLaws C}.
  Variable layout_new : Z -> Z -> nat -> option (Z -> nat).
  Hypothesis Lay : layout_ok layout_new.
  Variable segs : list (segment C).
  Hypothesis I : inv segs.
  Variable r : Z.
  Hypothesis Hr : 1 <= r.
  Variable ms : list mark.
  Hypothesis Ms : forall m, In m ms <-> pass_mark (map sx segs) r m.
  Notation out := (sort_merge (split_pieces segs ms)).

  Let W := inv_wf_sorted segs I.

  Lemma marks_not_end i p s : In (i, p) ms -> nth_error segs i = Some s -> p <> sa (sx s) /\ p <> sb (sx s).
  Proof.
    intros Im Hs. apply Ms in Im. apply pass_not_end in Im as (x & Hx & N); auto.
    apply nth_map_sx in Hx as (s' & Hs' & <-). rewrite Hs in Hs'. injection Hs' as <-. auto.
  Qed.

  Lemma pieces_bounded : Forall (fun s => bounded (sx s)) (split_pieces segs ms).
  Proof.
    assert (BS : forall s, In s segs -> bounded (sx s)) by (apply Forall_forall, I).
    assert (BX : Forall bounded (map sx segs)) by (apply Forall_map, I).
    assert (BM : forall i p, In (i, p) ms -> bounded_pt p).
    { intros i p Hm. apply Ms in Hm. apply pass_origin in Hm as (s & Hs & B); auto. rewrite Forall_forall in BX. eapply box_bound; eauto. }
    apply Forall_forall. intros e He. apply in_pieces_ends in He as (i & s & Hs & A & B).
    apply nth_error_In in Hs. specialize (BS s Hs) as [BS1 BS2]. split.
    - destruct A as [-> |[-> |A]]; eauto.
    - destruct B as [-> |[-> |B]]; eauto.
  Qed.

  Lemma step_inv : inv out.
  Proof.
    constructor.
    - apply sort_merge_sorted.
    - apply (sort_merge_elems wf_xseg). apply pieces_wf; [apply I|]. apply marks_not_end.
    - apply sort_merge_nonempty. apply pieces_nonempty; apply I.
    - apply sort_merge_ok. apply pieces_ok. apply I.
    - apply (sort_merge_elems bounded). apply pieces_bounded.
  Qed.

  Lemma step_boundary : wf_boundary segs out.
  Proof.
    intros f F1 F2 F3 v. rewrite sort_merge_boundary; auto. apply pieces_boundary; auto.
  Qed.

  Lemma step_apply : ms <> [] -> apply layout_new ms segs = Some out.
  Proof.
    intro N. apply apply_spec; auto; try apply I.
    - intros m Im. apply Ms in Im. destruct m as [k p]. apply pass_not_end in Im as (s & Hs & _); auto.
      simpl. rewrite <- (map_length sx). apply nth_error_Some. congruence.
    - intros [k p] s0 Im H0. simpl. apply Ms in Im.
      assert (BX : Forall bounded (map sx segs)) by (apply Forall_map, I).
      apply pass_origin in Im as (s & Is & [B _]); auto.
      assert (Le : px (sa (sx s0)) <= px (sa s)).
      { destruct segs as [|s1 rest]; [discriminate|]. injection H0 as <-.
        destruct Is as [<-|Is]; [lia|]. destruct W as [S _]. simpl in S. inversion S as [|? ? S1 S2]; subst.
        rewrite Forall_forall in S2. apply sorted_a_le. apply S2; auto. }
      destruct W as [_ F]. rewrite Forall_forall in F. specialize (F s Is). unfold wf_xseg, pt_lt in F. lia.
  Qed.

  (** ** without rounding *)
  Hypothesis NR : ~ pass_round (map sx segs) r.

  Lemma exact_inside i p s : In (i, p) ms -> nth_error segs i = Some s -> inside_seg (sx s) (qof p).
  Proof.
    intros Im Hs. apply Ms in Im.
    assert (Hx : nth_error (map sx segs) i = Some (sx s)) by (apply nth_map_sx; eauto).
    apply (pass_sound _ r W Hr i (sx s) p NR Hx Im).
  Qed.

  Lemma step_planar : planar (map sx out).
  Proof.
    assert (P : forall x, In x (map sx out) -> exists i s, nth_error (map sx segs) i = Some s /\ piece ms i s x).
    { assert (F : Forall (fun e : segment C => exists i s, nth_error (map sx segs) i = Some s /\ piece ms i s (sx e)) out).
      { apply (sort_merge_elems (fun x => exists i s, nth_error (map sx segs) i = Some s /\ piece ms i s x)).
        apply Forall_forall. intros e He. apply exact_pieces in He as (i & s & Hs & Hp & _); [|apply I|apply exact_inside].
        exists i, (sx s). split; auto. apply nth_map_sx. eauto. }
      intros x Hx. apply in_map_iff in Hx as (e & <- & He). rewrite Forall_forall in F. auto. }
    intros x y Hx Hy N q Ox Oy.
    apply P in Hx as (i & s & Hs & Px). apply P in Hy as (j & t & Ht & Py).
    apply (pieces_planar (map sx segs) ms) with (i := i) (j := j) (s := s) (t := t); auto.
    - intros k u Hu. eapply wf_sorted_wf; eauto.
    - intros k u p Hu Hp. apply (pass_sound _ r W Hr k u p NR Hu). apply Ms; auto.
    - intros k l u v q' Nk Hu Hv Ou Ov Iu CC. destruct (pass_complete _ r W Hr k l u v q' NR Nk Hu Hv Ou Ov Iu CC) as (p & Hq & Hp).
      exists p. split; auto. apply Ms; auto.
  Qed.

  Lemma step_wind f q : (forall x y, f (wc_add x y) = f x + f y) -> (forall c, wc_not_empty c = false -> f c = 0) ->
    (forall c, f (wc_invert c) = - f c) -> wind (chain_of f out) q = wind (chain_of f segs) q.
  Proof.
    intros F1 F2 F3. rewrite sort_merge_wind; auto. apply pieces_wind; auto; [apply I|].
    intros i p s Im Hs. split; [apply inside_cross, (exact_inside i p s); auto|apply (marks_not_end i p s); auto].
  Qed.
End Round.

Lemma sr_radius_pos r : 1 <= sr_radius r.
Proof. unfold sr_radius. pose proof (Z.pow_pos_nonneg 2 (Z.of_nat (current r))). lia. Qed.

Lemma planar_small {C} (segs : list (segment C)) : (length segs <= 1)%nat -> planar (map sx segs).
Proof.
  intros L s t Is It N. destruct segs as [|a [|b l]]; simpl in *; try tauto; try lia.
  destruct Is as [<-|[]], It as [<-|[]]. congruence.
Qed.

(** two different edges with non-zero counts do not form a closed chain *)
Lemma not_two (segs : list (segment cntB)) : inv segs -> balanced (subj_chain segs) -> balanced (clip_chain segs) -> length segs <> 2%nat.
Proof.
  intros I BS BC L. destruct segs as [|s [|t [|u l]]]; try discriminate. clear L.
  pose proof (inv_sorted _ I) as S. inversion S as [|? ? _ F]; subst. pose proof (Forall_inv F) as Lt. cbv beta in Lt.
  pose proof (inv_wf _ I) as W. pose proof (Forall_inv W) as Ws. pose proof (Forall_inv (Forall_inv_tail W)) as Wt. cbv beta in Ws, Wt.
  pose proof (inv_ne _ I) as N. pose proof (Forall_inv N) as Ns. pose proof (Forall_inv (Forall_inv_tail N)) as Nt. cbv beta in Ns, Nt.
  clear I S F W N.
  assert (K : forall f v, boundary (chain_of f [s; t]) v =
     f (sc s) * (bz (pt_eqb (sb (sx s)) v) - bz (pt_eqb (sa (sx s)) v)) + f (sc t) * (bz (pt_eqb (sb (sx t)) v) - bz (pt_eqb (sa (sx t)) v))).
  { intros f v. rewrite boundary_chain_of, !zsum_cons, zsum_nil. ring. }
  assert (H : exists v, (v = sa (sx s) \/ v = sb (sx s)) /\ v <> sa (sx t) /\ v <> sb (sx t)).
  { destruct (pt_eq_dec (sa (sx s)) (sa (sx t))) as [E|E].
    - exists (sb (sx s)). split; auto. split.
      + rewrite <- E. intro Z. unfold wf_xseg in Ws. rewrite Z in Ws. eapply pt_lt_irrefl; eauto.
      + intro Z. destruct Lt as [Lt|[_ Lt]]; [rewrite E in Lt|rewrite Z in Lt]; eapply pt_lt_irrefl; eauto.
    - exists (sa (sx s)). split; auto. split; auto. intro Z. unfold wf_xseg in Wt. rewrite <- Z in Wt.
      destruct Lt as [Lt|[Lt _]]; [|congruence]. eapply pt_lt_irrefl, pt_lt_trans; eauto. }
  destruct H as (v & Hv & N1 & N2).
  assert (E1 : pt_eqb (sa (sx t)) v = false) by (apply pt_eqb_neq; congruence).
  assert (E2 : pt_eqb (sb (sx t)) v = false) by (apply pt_eqb_neq; congruence).
  assert (Z : forall f, f (sc s) <> 0 -> boundary (chain_of f [s; t]) v <> 0).
  { intros f Nf. rewrite K, E1, E2. simpl.
    destruct Hv as [-> | ->]; rewrite pt_eqb_refl.
    - replace (pt_eqb (sb (sx s)) (sa (sx s))) with false; [simpl; lia|]. symmetry. apply pt_eqb_neq. intro Q. unfold wf_xseg in Ws. rewrite Q in Ws. eapply pt_lt_irrefl; eauto.
    - replace (pt_eqb (sa (sx s)) (sb (sx s))) with false; [simpl; lia|]. symmetry. apply pt_eqb_neq. intro Q. unfold wf_xseg in Ws. rewrite Q in Ws. eapply pt_lt_irrefl; eauto. }
  simpl in Ns.
  destruct (Z.eq_dec (subj (sc s)) 0) as [E|E].
  - apply (Z clip); [lia|]. apply BC.
  - apply (Z subj); [lia|]. apply BS.
Qed.

Lemma boundary_balanced (a b : list (segment cntB)) : wf_boundary a b -> balanced (subj_chain a) -> balanced (clip_chain a) ->
  balanced (subj_chain b) /\ balanced (clip_chain b).
Proof.
  intros B S C. split; intro v; unfold subj_chain, clip_chain in *; rewrite B; auto; simpl; auto;
    intros [? ?]; simpl; lia.
Qed.

(** ** The loop *)
Section Loop.
  Variable layout_new : Z -> Z -> nat -> option (Z -> nat).
  Hypothesis Lay : layout_ok layout_new.
  Variable query : list (nat * xseg) -> Z * Z -> Z -> list (nat * xseg).
  Hypothesis Q : query_ok query.
  Variable tree_new : Z * Z -> bool.
  Notation loop := (split_loop layout_new query tree_new).

  Lemma pass_spec (tree : bool) r xs : wf_sorted xs -> 1 <= r ->
    (forall m, In m (fst ((if tree then tree_pass query else list_pass) r xs)) <-> pass_mark xs r m) /\
    (snd ((if tree then tree_pass query else list_pass) r xs) = true <-> pass_round xs r).
  Proof. intros W Hr. destruct tree; [apply tree_pass_spec|apply list_pass_spec]; auto. Qed.

  (** any winding count: the result is planar, except that the tree solver never looks at two edges *)
  Theorem loop_spec_gen {C} {WC : WindingCount C} {WL : WCLaws C} solver fuel : forall tree r (segs out : list (segment C)), inv segs ->
    loop fuel solver tree r segs = Done out ->
    inv out /\ (planar (map sx out) \/ length out = 2%nat /\ (tree = true \/ strategy solver <> StList)) /\ wf_boundary segs out.
  Proof.
    induction fuel as [|fuel IH]; intros tree r segs out I H; [discriminate|].
    cbn [split_loop] in H.
    assert (Refl : wf_boundary segs segs) by (intros f _ _ _ v; auto).
    pose proof (inv_wf_sorted _ I) as W. pose proof (sr_radius_pos r) as Hr.
    destruct (pass_spec tree (sr_radius r) (map sx segs) W Hr) as [P1 P2].
    destruct (length segs <=? (if tree then 2 else 1))%nat eqn:EL.
    { injection H as <-. split; auto. split; auto. apply Nat.leb_le in EL.
      destruct tree; [|left; apply planar_small; auto].
      destruct (Nat.eq_dec (length segs) 2); [right; auto|left; apply planar_small; lia]. }
    destruct ((if tree then tree_pass query else list_pass) (sr_radius r) (map sx segs)) as [ms rd]. simpl in P1, P2.
    destruct ms as [|m0 ms0] eqn:EM.
    { injection H as <-. split; auto. split; auto. left. apply (pass_none _ (sr_radius r)); auto.
      intros m Hm. apply P1 in Hm. destruct Hm. }
    rewrite <- EM in *. rewrite (step_apply layout_new Lay segs I (sr_radius r) Hr ms P1) in H by (rewrite EM; discriminate).
    pose proof (step_inv segs I (sr_radius r) Hr ms P1) as I'.
    pose proof (step_boundary segs ms) as B'.
    assert (T : forall c, wf_boundary (sort_merge (split_pieces segs ms)) c -> wf_boundary segs c).
    { intros c B2 f F1 F2 F3 v. rewrite B2 by auto. apply B'; auto. }
    destruct rd; simpl in H.
    - assert (K : forall t r', loop fuel solver t r' (sort_merge (split_pieces segs ms)) = Done out -> (t = true -> tree = true \/ strategy solver <> StList) ->
         inv out /\ (planar (map sx out) \/ length out = 2%nat /\ (tree = true \/ strategy solver <> StList)) /\ wf_boundary segs out).
      { intros t r' H' Ht. apply IH in H' as (A & B & D); auto. split; auto. split; auto. tauto. }
      destruct tree; [eapply K; eauto|]. destruct (is_list_split solver _) eqn:IL; [eapply K; eauto; discriminate|].
      destruct (sort_merge (split_pieces segs ms)) as [|s0 rest] eqn:E0; [discriminate|]. eapply K; eauto.
      intros _. right. intro St. unfold is_list_split in IL. rewrite St in IL. discriminate.
    - injection H as <-. split; auto. split; auto. left.
      apply (step_planar segs I (sr_radius r) Hr ms P1). intro R. apply P2 in R. discriminate.
  Qed.

  Theorem loop_spec solver fuel tree r (segs out : list (segment cntB)) : inv segs ->
    balanced (subj_chain segs) -> balanced (clip_chain segs) ->
    loop fuel solver tree r segs = Done out ->
    inv out /\ planar (map sx out) /\ wf_boundary segs out.
  Proof.
    intros I BS BC H. destruct (loop_spec_gen solver fuel tree r segs out I H) as (I' & P & B). split; auto. split; auto.
    destruct P as [P|[L _]]; auto. destruct (boundary_balanced _ _ B BS BC) as [BS' BC'].
    exfalso. apply (not_two out); auto.
  Qed.

  (** no panic: out-of-bounds bins, empty marks; the tree solver is never entered with an
      empty list by [Auto] *)
  Theorem loop_no_panic {C} {WC : WindingCount C} {WL : WCLaws C} solver : strategy solver = StList \/ strategy solver = StAuto \/ strategy solver = StTree ->
    forall fuel tree r (segs : list (segment C)), inv segs -> (tree = true \/ strategy solver <> StTree) ->
    loop fuel solver tree r segs <> Panic.
  Proof.
    intros St. induction fuel as [|fuel IH]; intros tree r segs I T; [discriminate|].
    cbn [split_loop].
    pose proof (inv_wf_sorted _ I) as W. pose proof (sr_radius_pos r) as Hr.
    destruct (pass_spec tree (sr_radius r) (map sx segs) W Hr) as [P1 P2].
    destruct (length segs <=? (if tree then 2 else 1))%nat eqn:EL; [discriminate|].
    destruct ((if tree then tree_pass query else list_pass) (sr_radius r) (map sx segs)) as [ms rd]. simpl in P1, P2.
    destruct ms as [|m0 ms0] eqn:EM; [discriminate|]. rewrite <- EM in *.
    rewrite (step_apply layout_new Lay segs I (sr_radius r) Hr ms P1) by (rewrite EM; discriminate).
    pose proof (step_inv segs I (sr_radius r) Hr ms P1) as I'.
    destruct rd; simpl; [|discriminate].
    destruct tree; [apply IH; auto|].
    destruct T as [T|T]; [discriminate|].
    destruct (is_list_split solver _) eqn:IL; [apply IH; auto|].
    destruct (sort_merge (split_pieces segs ms)) as [|s0 rest] eqn:E0.
    - unfold is_list_split in IL. destruct St as [E|[E|E]]; rewrite E in *; try discriminate IL; congruence.
    - apply IH; auto.
  Qed.

  (** without rounding in the first pass the loop is done after at most one round *)
  Theorem loop_exact_gen {C} {WC : WindingCount C} {WL : WCLaws C} solver fuel tree r (segs : list (segment C)) : inv segs ->
    ~ pass_round (map sx segs) (sr_radius r) ->
    exists out, loop (S fuel) solver tree r segs = Done out /\
      (out = segs /\ (planar (map sx segs) \/ tree = true /\ length segs = 2%nat) \/
       exists ms, (forall m, In m ms <-> pass_mark (map sx segs) (sr_radius r) m) /\ out = sort_merge (split_pieces segs ms)).
  Proof.
    intros I NR. cbn [split_loop].
    pose proof (inv_wf_sorted _ I) as W. pose proof (sr_radius_pos r) as Hr.
    destruct (pass_spec tree (sr_radius r) (map sx segs) W Hr) as [P1 P2].
    destruct (length segs <=? (if tree then 2 else 1))%nat eqn:EL.
    { exists segs. split; auto. left. split; auto. apply Nat.leb_le in EL.
      destruct tree; [|left; apply planar_small; auto].
      destruct (Nat.eq_dec (length segs) 2); [right; auto|left; apply planar_small; lia]. }
    destruct ((if tree then tree_pass query else list_pass) (sr_radius r) (map sx segs)) as [ms rd]. simpl in P1, P2.
    destruct ms as [|m0 ms0] eqn:EM.
    { exists segs. split; auto. left. split; auto. left. apply (pass_none _ (sr_radius r)); auto.
      intros m Hm. apply P1 in Hm. destruct Hm. }
    rewrite <- EM in *.
    rewrite (step_apply layout_new Lay segs I (sr_radius r) Hr ms P1) by (rewrite EM; discriminate).
    assert (rd = false) as -> by (destruct rd; auto; exfalso; apply NR, P2; auto).
    simpl. eexists. split; [reflexivity|]. right. exists ms. auto.
  Qed.

  (** ... and the winding numbers are those of the input *)
  Theorem loop_exact solver fuel tree r (segs : list (segment cntB)) : inv segs -> balanced (subj_chain segs) -> balanced (clip_chain segs) ->
    ~ pass_round (map sx segs) (sr_radius r) ->
    exists out, loop (S fuel) solver tree r segs = Done out /\
      (forall q, wind (subj_chain out) q = wind (subj_chain segs) q) /\ (forall q, wind (clip_chain out) q = wind (clip_chain segs) q).
  Proof.
    intros I BS BC NR. destruct (loop_exact_gen solver fuel tree r segs I NR) as (out & H & D). exists out. split; auto.
    destruct D as [[-> _]|(ms & P1 & ->)]; auto. pose proof (sr_radius_pos r) as Hr.
    split; intro q; apply (step_wind segs I (sr_radius r) Hr ms P1 NR); simpl; auto; intros [? ?]; simpl; lia.
  Qed.

  (** more rounds allowed never change the answer *)
  Theorem loop_mono {C} {WC : WindingCount C} solver : forall fuel fuel' tree r (segs : list (segment C)), (fuel <= fuel')%nat ->
    loop fuel solver tree r segs <> Fuel -> loop fuel' solver tree r segs = loop fuel solver tree r segs.
  Proof.
    induction fuel as [|fuel IH]; intros fuel' tree r segs L H; [exfalso; apply H; reflexivity|].
    destruct fuel' as [|fuel']; [lia|]. cbn [split_loop] in *.
    destruct (length segs <=? (if tree then 2 else 1))%nat; auto.
    destruct ((if tree then tree_pass query else list_pass) (sr_radius r) (map sx segs)) as [ms rd].
    destruct ms; auto. destruct (apply layout_new _ segs); auto.
    destruct (negb rd); auto. destruct tree; [apply IH; auto; lia|].
    destruct (is_list_split solver _); [apply IH; auto; lia|]. destruct l; auto. apply IH; auto; lia.
  Qed.
End Loop.
