(** * What exact splitting does to flags of edges: a piece carries a flag iff an input edge
    with the flag runs over it, and every flagged edge is covered by flagged pieces. *)
From Verif Require Import Base Spec QLib ModelSegm SegmProofs MergeProofs PlanarGeo PlanarSum ModelFill FillProofs FillCorrect ModelCross CrossProofs CrossPoint MarksProofs ModelSplit CoreResults SplitProofs SplitPlanar SplitPass BinsProofs SplitApply SplitLoop.
Open Scope Z_scope.

(** both ends of [e] lie on [s] *)
Definition subseg (e s : xseg) : Prop := on_seg s (qof (sa e)) /\ on_seg s (qof (sb e)).

Lemma subseg_refl s : subseg s s.
Proof. split; [apply on_seg_end_a|apply on_seg_end_b]. Qed.
Lemma subseg_on e s q : subseg e s -> on_seg e q -> on_seg s q.
Proof. intros [A B] O. destruct e as [u w]. apply (sub_on s u w); auto. Qed.
Lemma subseg_trans e s t : subseg e s -> subseg s t -> subseg e t.
Proof. intros [A B] H. split; eapply subseg_on; eauto. Qed.

(** a point strictly inside a segment *)
Definition mid (s : xseg) : qpt := (((qx (sa s) + qx (sb s)) / 2)%Q, ((qy (sa s) + qy (sb s)) / 2)%Q).
Lemma mid_on s : on_seg s (mid s).
Proof. exists (1 # 2)%Q. unfold mid. simpl. split; [split; lra|]. split; field. Qed.
Lemma mid_inside s : wf_xseg s -> inside_seg s (mid s).
Proof.
  intro W. split; [apply mid_on|].
  assert (N : sa s <> sb s) by (intro E; unfold wf_xseg in W; rewrite E in W; eapply pt_lt_irrefl; eauto).
  assert (K : forall x y : Z, ((inject_Z x + inject_Z y) / 2 == inject_Z x \/ (inject_Z x + inject_Z y) / 2 == inject_Z y)%Q -> x = y).
  { intros x y H. apply qz_eq. set (a := inject_Z x) in *. set (b := inject_Z y) in *. assert (((a + b) / 2) * 2 == a + b)%Q by field. destruct H as [H|H]; rewrite H in H0; lra. }
  intros [[X Y]|[X Y]]; unfold mid, qx, qy in *; simpl in X, Y; apply N, pt_ext; apply K; auto.
Qed.

(** the ends of a sub-segment are in order *)
Lemma subseg_order e s : wf_xseg e -> wf_xseg s -> subseg e s -> pt_leb (sa s) (sa e) = true /\ pt_leb (sb e) (sb s) = true.
Proof.
  intros We Ws [A B]. apply on_seg_range in A as [A _]; auto. apply on_seg_range in B as [_ B]; auto.
  split; apply pt_of_qle; auto.
Qed.

Section Cover.
  Context {C : Type} {WC : WindingCount C} {WL : WCLaws C}.
  Variable segs : list (segment C).
  Variable ms : list mark.
  Hypothesis Wf : Forall (fun s => wf_xseg (sx s)) segs.
  Hypothesis In_marks : forall i p s, In (i, p) ms -> nth_error segs i = Some s -> inside_seg (sx s) (qof p).

  Lemma chop_cover (c : C) qs : forall p b q, StronglySorted pt_lt (p :: qs ++ [b]) -> qle (qof p) q -> qle q (qof b) ->
    exists u w, In (Seg (XS u w) c) (chop c p qs b) /\ qle (qof u) q /\ qle q (qof w) /\ In u (p :: qs ++ [b]) /\ In w (p :: qs ++ [b]).
  Proof.
    assert (K : forall a b, pt_lt a b -> create_and_validate a b c = Seg (XS a b) c).
    { intros a b L. unfold create_and_validate. apply pt_ltb_lt in L. rewrite L. auto. }
    induction qs as [|m qs IH]; intros p b q S A B; cbn [chop app] in *; inversion S as [|? ? S1 S2]; subst; pose proof (Forall_inv S2) as L.
    - exists p, b. rewrite K by auto. simpl; auto 10.
    - destruct (qle_total q (qof m)) as [M|M].
      + exists p, m. rewrite K by auto. simpl; auto 10.
      + destruct (IH m b q S1 M B) as (u & w & I & U & W & Iu & Iw). exists u, w. cbn [In] in *. auto 10.
  Qed.

  (** every point of every edge lies on a piece with the same count *)
  Lemma pieces_cover s q : In s segs -> on_seg (sx s) q ->
    exists e, In e (split_pieces segs ms) /\ sc e = sc s /\ subseg (sx e) (sx s) /\ on_seg (sx e) q /\ wf_xseg (sx e).
  Proof.
    intros Is O. apply In_nth_error in Is as [i Hs].
    pose proof (proj1 (Forall_forall _ _) Wf s (nth_error_In _ _ Hs)) as Ws. cbv beta in Ws.
    destruct (lookup (sort_and_filter_marks (map sx segs) ms) i) as [ps|] eqn:L.
    - pose proof L as L0. apply lookup_spec in L as (_ & L & ND & (qs & E & S)).
      assert (N : nth i (map sx segs) (XS (Pt 0 0) (Pt 0 0)) = sx s).
      { apply nth_error_nth. rewrite nth_error_map, Hs. reflexivity. }
      rewrite N in E.
      assert (HQ : forall p, In p qs -> In (i, p) ms).
      { intros p Hp. apply L. rewrite E. apply (Permutation_in _ (Permutation_sym (sort_sub_marks_perm _ _))). auto. }
      rewrite sort_sub_marks_exact in E; auto.
      2:{ intros p Hp. apply inside_cross. apply (In_marks i p s); auto. }
      subst qs.
      assert (SS : StronglySorted pt_lt (sa (sx s) :: ps ++ [sb (sx s)])).
      { change (sa (sx s) :: ps ++ [sb (sx s)]) with ([sa (sx s)] ++ (ps ++ [sb (sx s)])). apply SS_app; [repeat constructor| |].
        - apply SS_app; auto; [repeat constructor|]. intros x y Hx [<-|[]]. apply inside_between; auto. apply (In_marks i x s); auto.
        - intros x y [<-|[]] Hy. apply in_app_iff in Hy as [Hy|[<-|[]]]; auto. apply inside_between; auto. apply (In_marks i y s); auto. }
      destruct (on_seg_range _ _ Ws O) as [R1 R2].
      destruct (chop_cover (sc s) ps _ _ q SS R1 R2) as (u & w & I & U & W & Iu & Iw).
      assert (V : forall v, In v (sa (sx s) :: ps ++ [sb (sx s)]) -> on_seg (sx s) (qof v)).
      { intros v Hv. destruct Hv as [<-|Hv]; [apply on_seg_end_a|]. apply in_app_iff in Hv as [Hv|[<-|[]]]; [|apply on_seg_end_b].
        apply (In_marks i v s); auto. }
      assert (Lt : wf_xseg (XS u w)).
      { pose proof (chop_consec (sc s) ps _ _ _ SS I) as (u' & w' & E & _ & Lt). injection E as <- <-. exact Lt. }
      exists (Seg (XS u w) (sc s)). split; [apply in_pieces; exists i, s; split; auto; rewrite L0; exact I|].
      split; auto. split; [split; simpl; auto|]. split; auto. simpl.
      apply on_seg_of_range; auto. simpl.
      apply (colinear_line (XS u w) (sx s)); auto.
      pose proof (inside_cross _ _ (V u Iu)) as Cu. pose proof (inside_cross _ _ (V w Iw)) as Cw.
      assert (Ca : cross3 (sa (sx s)) (sb (sx s)) (sa (sx s)) = 0) by (unfold cross3; ring).
      assert (Cb : cross3 (sa (sx s)) (sb (sx s)) (sb (sx s)) = 0) by (unfold cross3; ring).
      unfold colinear, C1, C2. simpl. 
      pose proof (on_seg_cross u w (sa (sx s)) _ Ws Cu Cw Ca). pose proof (on_seg_cross u w (sb (sx s)) _ Ws Cu Cw Cb). auto.
    - exists s. split; [apply in_pieces; exists i, s; split; auto; rewrite L; simpl; auto|].
      split; auto. split; [apply subseg_refl|auto].
  Qed.
End Cover.

(** ** Flags *)
Section Flags.
  Context {C : Type} {WC : WindingCount C} {WL : WCLaws C}.

  Definition flag (g : C -> bool) : Prop := g (wc_new 0 0) = false /\ forall a b, g (wc_add a b) = g a || g b.

  (** the edges of [out] carry a flag iff they lie on an edge of [segs] that does; every edge
      with the flag is covered by edges of [out] with the flag *)
  Definition flags_kept (segs out : list (segment C)) : Prop := forall g, flag g ->
    (forall e, In e out -> (g (sc e) = true <-> exists s, In s segs /\ g (sc s) = true /\ subseg (sx e) (sx s))) /\
    (forall s q, In s segs -> g (sc s) = true -> on_seg (sx s) q ->
       exists e, In e out /\ g (sc e) = true /\ subseg (sx e) (sx s) /\ on_seg (sx e) q).

  Lemma flag_nonempty g c : flag g -> g c = true -> wc_not_empty c = true.
  Proof.
    intros [G0 _] H. destruct (wc_not_empty c) eqn:E; auto. apply wc_empty in E. congruence.
  Qed.

  (** an edge of a planar list that contains a point inside another one is that one *)
  Lemma planar_same (l : list xseg) x y : planar l -> In x l -> In y l -> wf_xseg x -> on_seg y (mid x) -> y = x.
  Proof.
    intros P Ix Iy Wx O. destruct (xseg_eqb y x) eqn:E; [apply xseg_eqb_eq; auto|]. apply xseg_eqb_neq in E.
    exfalso. assert (N : x <> y) by congruence.
    destruct (P x y Ix Iy N (mid x) (mid_on x) O) as [H _]. apply (mid_inside x Wx). exact H.
  Qed.

  Lemma flags_planar segs : planar (map sx segs) -> Forall (fun s => wf_xseg (sx s)) segs -> strict_sorted segs -> flags_kept segs segs.
  Proof.
    intros P W S g G. rewrite Forall_forall in W. split.
    - intros e Ie. split; [intro H; exists e; split; auto; split; auto; apply subseg_refl|].
      intros (s & Is & H & Sub). 
      assert (E : sx s = sx e).
      { apply (planar_same (map sx segs)); auto using in_map. eapply subseg_on; [exact Sub|apply mid_on]. }
      assert (ND := strict_sorted_NoDup _ S).
      assert (s = e); [|congruence].
      clear - ND Is Ie E. induction segs as [|t l IH]; [destruct Is|]. simpl in ND. inversion ND as [|? ? N1 N2]; subst.
      destruct Is as [<-|Is], Ie as [<-|Ie]; auto.
      + exfalso. apply N1. rewrite E. apply in_map; auto.
      + exfalso. apply N1. rewrite <- E. apply in_map; auto.
    - intros s q Is H O. exists s. split; auto. split; auto. split; auto. apply subseg_refl.
  Qed.

  Variable segs : list (segment C).
  Hypothesis I : inv segs.
  Variable r : Z.
  Hypothesis Hr : 1 <= r.
  Variable ms : list mark.
  Hypothesis Ms : forall m, In m ms <-> pass_mark (map sx segs) r m.
  Hypothesis NR : ~ pass_round (map sx segs) r.
  Notation out := (sort_merge (split_pieces segs ms)).

  Lemma step_flags : flags_kept segs out.
  Proof.
    intros g G. pose proof G as [G0 GA].
    pose proof (exact_inside segs I r Hr ms Ms NR) as EI.
    pose proof (step_planar segs I r Hr ms Ms NR) as P.
    assert (NE : Forall (fun s : segment C => wc_not_empty (sc s) = true) (split_pieces segs ms)) by (apply pieces_nonempty; apply I).
    assert (Spec := sort_merge_spec _ NE).
    assert (Up : forall e', In e' (split_pieces segs ms) -> g (sc e') = true ->
       exists e, In e out /\ sx e = sx e' /\ g (sc e) = true).
    { intros e' I' H. exists (Seg (sx e') (total (sx e') (split_pieces segs ms))).
      assert (T : g (total (sx e') (split_pieces segs ms)) = true).
      { rewrite total_flag by auto. apply existsb_exists. exists e'. split; auto. rewrite xseg_eqb_refl. auto. }
      split; [|split; auto]. apply Spec. simpl. split; auto. apply (flag_nonempty g); auto. }
    assert (Down : forall e', In e' (split_pieces segs ms) -> exists s, In s segs /\ sc e' = sc s /\ subseg (sx e') (sx s)).
    { intros e' I'. apply exact_pieces in I' as (i & s & Hs & (W & A & B & _) & E); [|apply I|exact EI].
      exists s. split; [eapply nth_error_In; eauto|]. split; auto.
      split; [destruct A as [-> |[-> |A]]|destruct B as [-> |[-> |B]]]; try apply on_seg_end_a; try apply on_seg_end_b; eapply EI; eauto. }
    assert (Wo : forall e, In e out -> wf_xseg (sx e)).
    { apply Forall_forall. apply (step_inv segs I r Hr ms Ms). }
    assert (Cov : forall s q, In s segs -> g (sc s) = true -> on_seg (sx s) q ->
       exists e, In e out /\ g (sc e) = true /\ subseg (sx e) (sx s) /\ on_seg (sx e) q).
    { intros s q Is H O. destruct (pieces_cover segs ms (inv_wf _ I) EI s q Is O) as (e' & I' & Ec & Sub & O' & _).
      rewrite <- Ec in H. destruct (Up e' I' H) as (e & Ie & Ex & He). exists e. rewrite Ex. auto. }
    split; auto.
    intros e Ie. split.
    - intro H. pose proof (proj1 (Spec e) Ie) as [_ T]. rewrite T, total_flag in H by auto.
      apply existsb_exists in H as (e' & I' & H). apply andb_true_iff in H as [H1 H2]. apply xseg_eqb_eq in H1.
      destruct (Down e' I') as (s & Is & Ec & Sub). exists s. rewrite <- Ec, <- H1. auto.
    - intros (s & Is & H & Sub).
      assert (O : on_seg (sx s) (mid (sx e))) by (eapply subseg_on; [exact Sub|apply mid_on]).
      destruct (Cov s _ Is H O) as (e2 & I2 & H2 & _ & O2).
      assert (E : sx e2 = sx e) by (apply (planar_same (map sx out)); auto using in_map).
      assert (e2 = e); [|congruence].
      pose proof (proj1 (Spec e) Ie) as [_ T]. pose proof (proj1 (Spec e2) I2) as [_ T2].
      rewrite E, <- T in T2. destruct e, e2; simpl in *; congruence.
  Qed.
End Flags.

(** merging equal edges *)
Lemma merge_flags {C} {WC : WindingCount C} {WL : WCLaws C} (l : list (segment C)) g : Forall (fun s => wc_not_empty (sc s) = true) l -> flag g ->
  (forall e, In e (sort_merge l) -> (g (sc e) = true <-> exists s, In s l /\ g (sc s) = true /\ sx s = sx e)) /\
  (forall s, In s l -> g (sc s) = true -> exists e, In e (sort_merge l) /\ g (sc e) = true /\ sx e = sx s).
Proof.
  intros NE G. pose proof G as [G0 GA]. assert (Spec := sort_merge_spec _ NE). split.
  - intros e Ie. apply Spec in Ie as [_ T]. rewrite T, total_flag by auto. rewrite existsb_exists. split.
    + intros (s & Is & H). apply andb_true_iff in H as [H1 H2]. apply xseg_eqb_eq in H1. eauto.
    + intros (s & Is & H1 & H2). exists s. split; auto. rewrite H2, xseg_eqb_refl. auto.
  - intros s Is H. exists (Seg (sx s) (total (sx s) l)).
    assert (T : g (total (sx s) l) = true).
    { rewrite total_flag by auto. apply existsb_exists. exists s. split; auto. rewrite xseg_eqb_refl. auto. }
    split; [|auto]. apply Spec. simpl. split; auto. apply (flag_nonempty g); auto.
Qed.
