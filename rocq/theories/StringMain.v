(** * Splitting a string overlay. *)
From Verif Require Import Base Spec QLib ModelSegm SegmProofs MergeProofs PlanarGeo PlanarSum ModelFill ModelFilter FillProofs FillCorrect
  ModelCross CrossProofs CrossPoint MarksProofs CoreResults Properties01 ModelSplit SplitProofs SplitPlanar SplitPass BinsProofs SplitApply SplitLoop SplitFlags
  ModelFrag ModelOverlay OverlayProofs ModelGraph GraphProofs ModelString StringProofs StringResults.
Open Scope Z_scope.

Lemma on_seg_swap a b q : on_seg (XS a b) q -> on_seg (XS b a) q.
Proof. intros (t & R & X & Y). exists (1 - t)%Q. simpl in *. split; [lra|]. rewrite X, Y. split; ring. Qed.
Lemma inside_swap a b q : inside_seg (XS a b) q -> inside_seg (XS b a) q.
Proof. intros [O N]. split; [apply on_seg_swap; auto|]. unfold is_end in *. simpl in *. tauto. Qed.

(** the move [e] runs along the move [m], in the same direction *)
Definition runs_along (e m : pt * pt) : Prop :=
  on_seg (XS (fst m) (snd m)) (qof (fst e)) /\ on_seg (XS (fst m) (snd m)) (qof (snd e)) /\
  0 < (px (snd e) - px (fst e)) * (px (snd m) - px (fst m)) + (py (snd e) - py (fst e)) * (py (snd m) - py (fst m)).

Lemma subseg_dot e s : wf_xseg e -> wf_xseg s -> subseg e s ->
  0 < (px (sb e) - px (sa e)) * (px (sb s) - px (sa s)) + (py (sb e) - py (sa e)) * (py (sb s) - py (sa s)).
Proof.
  intros We Ws [(t1 & R1 & X1 & Y1) (t2 & R2 & X2 & Y2)]. unfold qof in *. simpl in *.
  unfold wf_xseg, pt_lt in *. unfold qx, qy in *.
  set (u := px (sb s) - px (sa s)) in *. set (v := py (sb s) - py (sa s)) in *.
  assert (Du : (inject_Z (px (sb e) - px (sa e)) == (t2 - t1) * inject_Z u)%Q).
  { unfold u. rewrite !inject_Z_sub || idtac. unfold Z.sub. rewrite !inject_Z_plus, !inject_Z_opp, X1, X2. ring. }
  assert (Dv : (inject_Z (py (sb e) - py (sa e)) == (t2 - t1) * inject_Z v)%Q).
  { unfold v. unfold Z.sub. rewrite !inject_Z_plus, !inject_Z_opp, Y1, Y2. ring. }
  set (du := px (sb e) - px (sa e)) in *. set (dv := py (sb e) - py (sa e)) in *.
  assert (T : (t1 < t2)%Q).
  { destruct (Qlt_le_dec t1 t2) as [T|T]; auto. exfalso.
    assert (Hs : 0 < u \/ u = 0 /\ 0 < v) by (unfold u, v; lia).
    assert (He : 0 < du \/ du = 0 /\ 0 < dv) by (unfold du, dv; lia).
    assert (NP : forall x y : Z, 0 <= y -> (inject_Z x == (t2 - t1) * inject_Z y)%Q -> x <= 0).
    { intros x y Hy E. rewrite Zle_Qle. change (inject_Z 0) with 0%Q. rewrite E. assert (0 <= inject_Z y)%Q by (change 0%Q with (inject_Z 0); rewrite <- Zle_Qle; auto).
      assert (0 <= (t1 - t2) * inject_Z y)%Q by (apply Qmult_le_0_compat; lra). lra. }
    destruct Hs as [Hs|[Hs Hs']].
    - pose proof (NP du u ltac:(lia) Du). destruct He as [He|[He He']]; [lia|]. rewrite He in Du.
      assert (t2 - t1 == 0)%Q.
      { assert (inject_Z u > 0)%Q by (change 0%Q with (inject_Z 0); rewrite <- Zlt_Qlt; auto). change (inject_Z 0) with 0%Q in Du.
        destruct (Qeq_dec (t2 - t1) 0) as [E|E]; auto. symmetry in Du. apply Qmult_integral in Du as [Du|Du]; auto. rewrite Du in H0. lra. }
      rewrite H0 in Dv. assert (Z0 : (inject_Z dv == inject_Z 0)%Q) by (rewrite Dv; change (inject_Z 0) with 0%Q; ring). apply (proj1 (qz_eq _ _)) in Z0. lia.
    - rewrite Hs in Du. assert (Z0 : (inject_Z du == inject_Z 0)%Q) by (rewrite Du; change (inject_Z 0) with 0%Q; ring). apply (proj1 (qz_eq _ _)) in Z0.
      pose proof (NP dv v ltac:(lia) Dv) as NPv. lia. }
  assert (P : (0 < inject_Z (du * u + dv * v))%Q).
  { rewrite inject_Z_plus, !inject_Z_mult, Du, Dv.
    assert (Hu : 0 < u \/ u = 0 /\ 0 < v) by (unfold u, v; lia).
    assert (Hs : 0 < u * u + v * v) by (clear - Hu; clearbody u v; nia).
    rewrite Zlt_Qlt, inject_Z_plus, !inject_Z_mult in Hs. change (inject_Z 0) with 0%Q in Hs.
    setoid_replace ((t2 - t1) * inject_Z u * inject_Z u + (t2 - t1) * inject_Z v * inject_Z v)%Q with ((t2 - t1) * (inject_Z u * inject_Z u + inject_Z v * inject_Z v))%Q by ring.
    assert (0 < t2 - t1)%Q by lra. apply Qmult_lt_0_compat; auto. }
  change 0%Q with (inject_Z 0) in P. rewrite <- Zlt_Qlt in P. exact P.
Qed.
Lemma subseg_runs e s : wf_xseg e -> wf_xseg s -> subseg e s ->
  runs_along (sa e, sb e) (sa s, sb s) /\ runs_along (sb e, sa e) (sb s, sa s).
Proof.
  intros We Ws Sub. pose proof (subseg_dot e s We Ws Sub) as D. destruct Sub as [A B]. destruct s as [p q]. simpl in *.
  split; (split; [|split]); simpl; auto using on_seg_swap; lia.
Qed.

Section WithContracts.
  Variable layout_new : Z -> Z -> nat -> option (Z -> nat).
  Hypothesis Lay : layout_ok layout_new.
  Variable query : list (nat * xseg) -> Z * Z -> Z -> list (nat * xseg).
  Hypothesis Qry : query_ok query.
  Variable tree_new : Z * Z -> bool.
  Notation splitI fuel solver items := (split_segments layout_new query tree_new fuel solver (string_segments items)).
  Notation merged items := (sort_merge (string_segments items)).

  Lemma merged_subj_balanced items : balanced (chain_of ssubj (merged items)).
  Proof.
    intro v. rewrite sort_merge_boundary by (apply ssubj_add || apply ssubj_empty). apply string_balanced.
  Qed.

  Lemma string_done fuel solver items arr : string_bounded items -> no_grid solver (length (merged items)) ->
    splitI fuel solver items = Done arr ->
    inv arr /\ (planar (map sx arr) \/ length arr = 2%nat /\ strategy solver <> StList) /\ balanced (chain_of ssubj arr).
  Proof.
    intros B N H. destruct (split_done_gen layout_new Lay query Qry tree_new (string_segments items) fuel solver arr (string_inv items B) N H) as (I & P & WB).
    split; auto. split; auto. intro v. rewrite (WB ssubj ssubj_add ssubj_empty ssubj_invert). apply merged_subj_balanced.
  Qed.

  Lemma string_exact fuel solver items : string_bounded items -> no_grid solver (length (merged items)) ->
    exact_crossings (map sx (merged items)) -> (merged items <> [] \/ is_list_split solver 0 = true) ->
    (is_list_split solver 2 = true \/ length (merged items) <> 2%nat) ->
    exists arr, splitI (S fuel) solver items = Done arr /\ inv arr /\ planar (map sx arr) /\ balanced (chain_of ssubj arr) /\
      flags_kept (merged items) arr /\
      (forall q, wind (chain_of ssubj arr) q = wind (chain_of ssubj (string_segments items)) q).
  Proof.
    intros B N Ex NE L2. pose proof (string_inv items B) as I.
    destruct (split_exact_gen layout_new Lay query Qry tree_new (string_segments items) solver fuel I N Ex NE) as (NR & arr & H & D).
    exists arr. split; auto.
    destruct (string_done _ _ _ _ B N H) as (I' & _ & Bal). split; auto.
    destruct D as [[-> [P|[L L']]]|(ms & Ms & ->)].
    - split; auto. split; auto. split; [apply flags_planar; auto; apply I|].
      intro q. apply sort_merge_wind; [apply ssubj_add|apply ssubj_empty].
    - destruct L2; congruence.
    - pose proof (sr_radius_pos (snap_radius solver)) as Hr. split; [eapply step_planar; eauto|]. split; auto. split; [eapply step_flags; eauto|].
      intro q. rewrite (step_wind _ I _ Hr ms Ms NR ssubj q ssubj_add ssubj_empty ssubj_invert).
      apply sort_merge_wind; [apply ssubj_add|apply ssubj_empty].
  Qed.

  (** *** pieces and moves *)
  Definition backb (c : cntS) : bool := N.testbit (sclip c) 0.
  Definition forwb (c : cntS) : bool := N.testbit (sclip c) 1.
  Lemma flag_back : flag backb.
  Proof. split; [reflexivity|]. intros a b. unfold backb. simpl. apply N.lor_spec. Qed.
  Lemma flag_forw : flag forwb.
  Proof. split; [reflexivity|]. intros a b. unfold forwb. simpl. apply N.lor_spec. Qed.

  (** the directions of a piece *)
  Definition piece_dirs (s : segment cntS) : list (pt * pt) :=
    (if backb (sc s) then [(sa (sx s), sb (sx s))] else []) ++ (if forwb (sc s) then [(sb (sx s), sa (sx s))] else []).

  Lemma piece_dirs_moves items arr : flags_kept (merged items) arr -> Forall (fun s => wf_xseg (sx s)) arr ->
    (forall s e, In s arr -> In e (piece_dirs s) -> exists m, In m (moves items) /\ runs_along e m) /\
    (forall m q, In m (moves items) -> fst m <> snd m -> on_seg (XS (fst m) (snd m)) q ->
       exists s e, In s arr /\ In e (piece_dirs s) /\ runs_along e m /\ on_seg (sx s) q).
  Proof.
    intros F W. rewrite Forall_forall in W.
    pose proof (string_nonempty items) as NE.
    split.
    - intros s e Is He. unfold piece_dirs in He. apply in_app_or in He as [He|He].
      + destruct (backb (sc s)) eqn:Bk; [|destruct He]. destruct He as [<-|[]].
        destruct (F backb flag_back) as [F1 _]. apply (F1 s Is) in Bk as (t & It & Bt & Sub).
        destruct (merge_flags _ backb NE flag_back) as [M1 _]. apply (M1 t It) in Bt as (s0 & I0 & B0 & E0).
        apply segments_in in I0 as [(p & _ & I0)|(m & Im & I0)].
        { apply contour_seg_in in I0 as [I0 _]. unfold backb in B0. rewrite I0 in B0. discriminate. }
        exists m. split; auto. apply move_seg_in in I0 as (_ & W0 & _ & [[Em C0]|[Em C0]]); unfold backb in B0; rewrite C0 in B0; try discriminate.
        rewrite <- E0 in Sub. destruct (subseg_runs _ _ (W s Is) W0 Sub) as [R _]. rewrite Em in R. destruct m. exact R.
      + destruct (forwb (sc s)) eqn:Bk; [|destruct He]. destruct He as [<-|[]].
        destruct (F forwb flag_forw) as [F1 _]. apply (F1 s Is) in Bk as (t & It & Bt & Sub).
        destruct (merge_flags _ forwb NE flag_forw) as [M1 _]. apply (M1 t It) in Bt as (s0 & I0 & B0 & E0).
        apply segments_in in I0 as [(p & _ & I0)|(m & Im & I0)].
        { apply contour_seg_in in I0 as [I0 _]. unfold forwb in B0. rewrite I0 in B0. discriminate. }
        exists m. split; auto. apply move_seg_in in I0 as (_ & W0 & _ & [[Em C0]|[Em C0]]); unfold forwb in B0; rewrite C0 in B0; try discriminate.
        rewrite <- E0 in Sub. destruct (subseg_runs _ _ (W s Is) W0 Sub) as [_ R]. rewrite Em in R. destruct m. exact R.
    - intros m q Im Nm On. destruct (move_seg_ex m Nm) as (s0 & I0 & W0 & _ & K).
      assert (Is0 : In s0 (string_segments items)) by (apply segments_in; right; eauto).
      destruct K as [[Em C0]|[Em C0]].
      + assert (B0 : backb (sc s0) = true) by (unfold backb; rewrite C0; reflexivity).
        destruct (merge_flags _ backb NE flag_back) as [_ M2]. destruct (M2 s0 Is0 B0) as (t & It & Bt & Et).
        assert (On' : on_seg (sx t) q) by (rewrite Et, Em; auto).
        destruct (F backb flag_back) as [_ F2]. destruct (F2 t q It Bt On') as (s & Is & Bs & Sub & Os).
        exists s, (sa (sx s), sb (sx s)). split; auto. split; [unfold piece_dirs; rewrite Bs; simpl; auto|]. split; auto.
        rewrite Et in Sub. destruct (subseg_runs _ _ (W s Is) W0 Sub) as [R _]. rewrite Em in R. destruct m. exact R.
      + assert (B0 : forwb (sc s0) = true) by (unfold forwb; rewrite C0; reflexivity).
        destruct (merge_flags _ forwb NE flag_forw) as [_ M2]. destruct (M2 s0 Is0 B0) as (t & It & Bt & Et).
        assert (On' : on_seg (sx t) q) by (rewrite Et, Em; apply on_seg_swap; auto).
        destruct (F forwb flag_forw) as [_ F2]. destruct (F2 t q It Bt On') as (s & Is & Bs & Sub & Os).
        exists s, (sb (sx s), sa (sx s)). split; auto. split; [unfold piece_dirs; rewrite Bs; apply in_or_app; simpl; auto|]. split; auto.
        rewrite Et in Sub. destruct (subseg_runs _ _ (W s Is) W0 Sub) as [_ R]. rewrite Em in R. destruct m. exact R.
  Qed.
End WithContracts.
