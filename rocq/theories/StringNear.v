(** * String overlays with rounding: regions and lines relative to what was given. *)
From Verif Require Import Base Spec QLib ModelSegm SegmProofs MergeProofs PlanarGeo PlanarSum ModelFill ModelFilter FillProofs FillCorrect
  ModelCross CrossProofs CrossPoint MarksProofs CoreResults Properties01 ModelSplit SplitProofs SplitPlanar SplitPass BinsProofs SplitApply SplitLoop SplitFlags
  ModelFrag ModelOverlay OverlayProofs FragProofs GridCover Properties02 ModelGraph GraphProofs Properties03 ModelString StringProofs StringResults StringMain Properties07
  SplitNear InputCover Properties15 FloatSpace ModelFloat FloatProofs Rounds.
From Coq Require Import Lqa Qabs QOrderedType Qminmax.
Open Scope Z_scope.

(** ** Specification *)
(** [q] is within [d] of an edge of a contour of the shapes, of a line *)
Definition near_contour (d : Q) (items : list item) (q : qpt) : Prop := exists c e, In c (shape_contours items) /\ In e (edges c) /\ within d (fst e) (snd e) q.
Definition near_line (d : Q) (items : list item) (q : qpt) : Prop := exists m, In m (moves items) /\ within d (fst m) (snd m) q.

(** ** Winding numbers do not change where no edge passes *)
Lemma edge_wind_comp q q' e : (fst q == fst q')%Q -> (snd q == snd q')%Q -> edge_wind q e = edge_wind q' e.
Proof.
  intros X Y. destruct e as [a b]. rewrite !edge_wind_lef.
  assert (L : forall p, lef q p = lef q' p) by (intro p; unfold lef; apply eq_true_iff_eq; rewrite !Qle_bool_iff, X; tauto).
  rewrite !L. do 2 f_equal. unfold Qltb. f_equal. apply eq_true_iff_eq. rewrite !Qle_bool_iff. unfold hgt, height. cbn [sa sb]. rewrite X, Y. tauto.
Qed.
Lemma contour_wind_comp q q' c : (fst q == fst q')%Q -> (snd q == snd q')%Q -> contour_wind c q = contour_wind c q'.
Proof. intros X Y. unfold contour_wind. apply zsum_ext. intros e _. apply edge_wind_comp; auto. Qed.
Lemma contour_still d c q q' : (0 <= d)%Q -> close d q q' -> (forall e, In e (edges c) -> ~ within d (fst e) (snd e) q) -> contour_wind c q' = contour_wind c q.
Proof.
  intros D Cl W. set (o := (fst q - fst q', snd q - snd q')%Q). assert (P1 : (0 < 1)%Q) by lra.
  assert (E' : contour_wind c q' = qcontour_wind (map (place 1 o) c) q).
  { rewrite contour_place by auto. apply contour_wind_comp; unfold unplace, o; cbn [fst snd]; field. }
  assert (E : contour_wind c q = qcontour_wind (map (place 1 (0, 0)%Q) c) q).
  { rewrite contour_place by auto. apply contour_wind_comp; unfold unplace; cbn [fst snd]; field. }
  rewrite E, E'. apply (contour_move d); auto.
  - intros p _. destruct Cl as [A B]. apply Qabs_le_iff in A, B. unfold place, o. split; cbn [fst snd]; apply Qabs_le_iff; split; lra.
  - rewrite ring_map, ring_edges. intros e Ie Wq. apply in_map_iff in Ie as (e' & <- & Ie). cbn [fst snd] in Wq. apply (W e' Ie).
    assert (Wq' : qwithin (1 * d) (place 1 (0, 0)%Q (fst e')) (place 1 (0, 0)%Q (snd e')) q) by (eapply qwithin_mono; [|exact Wq]; lra).
    apply (within_place 1 (0, 0)%Q P1) in Wq'. eapply within_comp; [| |exact Wq']; unfold unplace; cbn [fst snd]; field.
Qed.
Lemma near_contour_mono d e items q : (d <= e)%Q -> near_contour d items q -> near_contour e items q.
Proof. intros L (c & x & Ic & Ix & W). exists c, x. split; auto. split; auto. eapply within_mono; eauto. Qed.
Lemma within_close d e a b p q : within d a b p -> close e p q -> within (d + e) a b q.
Proof. intros (t & T & X & Y) [A B]. apply Qabs_le_iff in X, Y, A, B. exists t. split; auto. split; apply Qabs_le_iff; split; lra. Qed.
Lemma near_contour_close d e items p q : near_contour d items p -> close e p q -> near_contour (d + e) items q.
Proof. intros (c & x & Ic & Ix & W) Cl. exists c, x. split; auto. split; auto. eapply within_close; eauto. Qed.
Lemma contours_still d items q q' : (0 <= d)%Q -> close d q q' -> ~ near_contour d items q -> contours_wind (shape_contours items) q' = contours_wind (shape_contours items) q.
Proof.
  intros D Cl N. unfold contours_wind. apply zsum_ext. intros c Ic. apply (contour_still d); auto. intros e Ie W. apply N. exists c, e. auto.
Qed.

(** a point strictly inside a segment, as close as we like to a point of the segment *)
Lemma param_inside s t q : wf_xseg s -> (0 < t < 1)%Q -> (fst q == qx (sa s) + t * (qx (sb s) - qx (sa s)))%Q -> (snd q == qy (sa s) + t * (qy (sb s) - qy (sa s)))%Q -> inside_seg s q.
Proof.
  intros W T X Y. split; [exists t; split; [lra|auto]|].
  assert (N : sa s <> sb s) by (intro E; unfold wf_xseg in W; rewrite E in W; eapply pt_lt_irrefl; eauto).
  assert (Nz : ~ (qx (sb s) - qx (sa s) == 0)%Q \/ ~ (qy (sb s) - qy (sa s) == 0)%Q).
  { destruct (Qeq_dec (qx (sb s) - qx (sa s)) 0) as [E|E]; [|auto]. right. intro E'. apply N.
    assert (E1 : (qx (sa s) == qx (sb s))%Q) by lra. assert (E2 : (qy (sa s) == qy (sb s))%Q) by lra. unfold qx, qy in E1, E2. apply (proj1 (qz_eq _ _)) in E1. apply (proj1 (qz_eq _ _)) in E2.
    apply pt_ext; [exact E1|exact E2]. }
  intros [[A B]|[A B]].
  - rewrite A in X. rewrite B in Y. destruct Nz as [Nz|Nz]; apply Nz.
    + assert (E : (t * (qx (sb s) - qx (sa s)) == 0)%Q) by lra. apply Qmult_integral in E as [E|E]; auto. lra.
    + assert (E : (t * (qy (sb s) - qy (sa s)) == 0)%Q) by lra. apply Qmult_integral in E as [E|E]; auto. lra.
  - rewrite A in X. rewrite B in Y. destruct Nz as [Nz|Nz]; apply Nz.
    + assert (E : ((1 - t) * (qx (sb s) - qx (sa s)) == 0)%Q) by lra. apply Qmult_integral in E as [E|E]; auto. lra.
    + assert (E : ((1 - t) * (qy (sb s) - qy (sa s)) == 0)%Q) by lra. apply Qmult_integral in E as [E|E]; auto. lra.
Qed.
Lemma interior_near s q e : wf_xseg s -> on_seg s q -> (0 < e)%Q -> exists q', inside_seg s q' /\ close e q q'.
Proof.
  intros W (t & T & X & Y) E. set (dx := (qx (sb s) - qx (sa s))%Q) in *. set (dy := (qy (sb s) - qy (sa s))%Q) in *.
  set (m := (e + Qabs dx + Qabs dy)%Q). pose proof (Qabs_nonneg dx) as Ax. pose proof (Qabs_nonneg dy) as Ay.
  set (l := (e / m)%Q). assert (M : (0 < m)%Q) by (unfold m; lra). assert (L : (l * m == e)%Q) by (unfold l; field; lra).
  assert (L0 : (0 < l)%Q). { apply (Qmult_lt_l 0 l m); auto. rewrite Qmult_0_r. lra. }
  assert (L1 : (l <= 1)%Q). { apply (Qmult_le_l l 1 m); auto. unfold m in *. lra. }
  set (t' := (t + l * ((1 # 2) - t))%Q). pose proof (Qmult_lt_0_compat l (1 # 2) L0 ltac:(lra)).
  pose proof (Qmult_le_0_compat (1 - l) t ltac:(lra) ltac:(lra)). pose proof (Qmult_le_0_compat (1 - l) (1 - t) ltac:(lra) ltac:(lra)).
  assert (T' : (0 < t' < 1)%Q) by (unfold t'; split; lra).
  exists (qx (sa s) + t' * dx, qy (sa s) + t' * dy)%Q. split; [apply (param_inside s t'); auto; reflexivity|].
  assert (K : forall z, (Qabs z <= Qabs dx + Qabs dy)%Q -> (- e <= l * ((1 # 2) - t) * z <= e)%Q).
  { intros z Hz. apply Qabs_le_iff in Hz. pose proof (Qmult_le_0_compat l (Qabs dx + Qabs dy) ltac:(lra) ltac:(lra)) as P.
    assert (P' : (l * (Qabs dx + Qabs dy) <= e)%Q). { pose proof (Qmult_lt_0_compat l e L0 E). unfold m in L. lra. }
    pose proof (mul_range l z (Qabs dx + Qabs dy) ltac:(lra) Hz) as R. assert (Z' : (- e <= l * z <= e)%Q) by lra.
    destruct (Qlt_le_dec t (1 # 2)) as [Lt'|Lt'].
    - pose proof (mul_range ((1 # 2) - t) (l * z) e ltac:(lra) Z'). assert ((((1 # 2) - t) * e <= e)%Q) by (pose proof (Qmult_le_0_compat ((1 # 2) + t) e ltac:(lra) ltac:(lra)); lra). split; lra.
    - pose proof (mul_range (t - (1 # 2)) (l * z) e ltac:(lra) Z'). assert (((t - (1 # 2)) * e <= e)%Q) by (pose proof (Qmult_le_0_compat ((3 # 2) - t) e ltac:(lra) ltac:(lra)); lra). split; lra. }
  pose proof (K dx ltac:(lra)) as Kx. pose proof (K dy ltac:(lra)) as Ky. split; cbn [fst snd]; apply Qabs_le_iff; unfold t'; rewrite ?X, ?Y; split; lra.
Qed.

(** ** After splitting *)
Section WithContracts.
  Variable layout_new : Z -> Z -> nat -> option (Z -> nat).
  Hypothesis Lay : layout_ok layout_new.
  Variable query : list (nat * xseg) -> Z * Z -> Z -> list (nat * xseg).
  Hypothesis Qry : query_ok query.
  Variable tree_new : Z * Z -> bool.
  Notation splitI fuel solver items := (split_segments layout_new query tree_new fuel solver (string_segments items)).
  Notation merged items := (sort_merge (string_segments items)).

  Lemma string_rounds n solver items arr : string_bounded items -> no_grid solver (length (merged items)) -> splitI (S n) solver items = Done arr ->
    rounds (inject_Z (moved (precision solver) n)) (merged items) arr.
  Proof.
    intros B N H. destruct (split_is_loop layout_new query tree_new (S n) solver (string_segments items) N) as [(_ & _ & E)|(tree & E & _)]; rewrite E in H; [discriminate|].
    rewrite <- drift_moved. apply (loop_rounds layout_new Lay query Qry tree_new solver n tree _ _ _ (string_inv items B) H).
  Qed.
  (** flags of lines, in any direction *)
  Definition lined (c : cntS) : bool := backb c || forwb c.
  Lemma lined_flag : flag lined.
  Proof.
    split; [reflexivity|]. intros a b. unfold lined. destruct flag_back as [_ ->]. destruct flag_forw as [_ ->]. destruct (backb a), (backb b), (forwb a), (forwb b); reflexivity.
  Qed.
  Lemma lined_invert c : lined (wc_invert c) = lined c.
  Proof.
    unfold lined, backb, forwb. destruct c as [z m]. cbn [wc_invert WC_S sclip].
    rewrite !N.lor_spec, !N.shiftr_spec by (apply N.le_0_l). rewrite N.shiftl_spec_low by reflexivity. rewrite N.shiftl_spec_high by (try apply N.le_0_l; reflexivity || (apply N.le_refl)).
    rewrite !N.land_spec. change (0 + 1)%N with 1%N. change (1 + 1)%N with 2%N. change (1 - 1)%N with 0%N. change (N.testbit 2 1) with true. change (N.testbit 2 2) with false. change (N.testbit 1 0) with true.
    rewrite !andb_true_r, andb_false_r, orb_false_r. cbn [orb]. apply orb_comm.
  Qed.
  Lemma within_swap d a b q : within d a b q -> within d b a q.
  Proof. intros (t & T & X & Y). apply Qabs_le_iff in X, Y. exists (1 - t)%Q. split; [lra|]. split; apply Qabs_le_iff; split; lra. Qed.
  Section Arr.
    Variables (n : nat) (solver : Solver) (items : list item) (arr : list (segment cntS)).
    Hypothesis B : string_bounded items.
    Hypothesis Op : Forall open_contour (shape_contours items).
    Hypothesis R : rounds (inject_Z (moved (precision solver) n)) (merged items) arr.
    Notation D := (inject_Z (moved (precision solver) n)).

    Lemma value_near s q : In s (merged items) -> ssubj (sc s) <> 0 -> within D (sa (sx s)) (sb (sx s)) q -> near_contour D items q.
    Proof.
      intros Is Ns W. destruct (merge_value ssubj (string_segments items) s ssubj_add ssubj_empty Is Ns) as (s' & Is' & Ex & Ns'). rewrite <- Ex in W.
      apply segments_in in Is' as [(c & Ic & Is')|(m & _ & Is')].
      - rewrite Forall_forall in Op. destruct (append_near c Subject D q s' (Op c Ic) Is' W) as (e & Ie & We). exists c, e. auto.
      - apply move_seg_in in Is' as (_ & _ & E & _). congruence.
    Qed.
    Lemma arr_wind q : ~ near_contour D items q -> wind (chain_of ssubj arr) q = contours_wind (shape_contours items) q.
    Proof.
      intro N. rewrite (rounds_wind ssubj q D (merged items) arr ssubj_add ssubj_empty ssubj_invert R).
      - rewrite sort_merge_wind by (apply ssubj_add || apply ssubj_empty). apply string_wind; auto.
      - intros s Is Ns W. apply N. eapply value_near; eauto.
    Qed.

    Lemma line_source s : In s arr -> lined (sc s) = true -> exists m, In m (moves items) /\
      within D (fst m) (snd m) (qof (sa (sx s))) /\ within D (fst m) (snd m) (qof (sb (sx s))).
    Proof.
      intros Is L. destruct (rounds_source lined D (merged items) arr lined_flag lined_invert R s Is L) as (s0 & I0 & L0 & Wa & Wb).
      destruct (merge_flags (string_segments items) lined (string_nonempty items) lined_flag) as [M _]. apply M in L0 as (s1 & I1 & L1 & Ex); auto. rewrite <- Ex in Wa, Wb.
      apply segments_in in I1 as [(c & Ic & I1)|(m & Im & I1)].
      - apply contour_seg_in in I1 as [E _]. unfold lined, backb, forwb in L1. rewrite E in L1. discriminate.
      - exists m. split; auto. apply move_seg_in in I1 as (_ & _ & _ & [[E _]|[E _]]); rewrite E in Wa, Wb; cbn [sa sb] in Wa, Wb; auto.
        split; apply within_swap; auto.
    Qed.
    Lemma line_cover m q : In m (moves items) -> fst m <> snd m -> on_seg (XS (fst m) (snd m)) q ->
      exists s q', In s arr /\ lined (sc s) = true /\ on_seg (sx s) q' /\ close D q q'.
    Proof.
      intros Im Nm O. destruct m as [a b]. cbn [fst snd] in *.
      assert (S0 : exists s0, In s0 (move_seg (a, b)) /\ lined (sc s0) = true /\ on_seg (sx s0) q).
      { unfold move_seg, line_segment. cbn [fst snd]. pose proof (pt_cmp_spec a b) as Cm. destruct (pt_cmp a b); [congruence| |].
        - eexists. split; [left; reflexivity|]. split; [reflexivity|exact O].
        - eexists. split; [left; reflexivity|]. split; [reflexivity|]. apply on_seg_swap. exact O. }
      destruct S0 as (s0 & I0 & L0 & O0).
      destruct (merge_flags (string_segments items) lined (string_nonempty items) lined_flag) as [_ M].
      destruct (M s0) as (s1 & I1 & L1 & Ex); auto. { apply segments_in. right. eauto. } rewrite <- Ex in O0.
      destruct (rounds_cover lined D (merged items) arr lined_flag lined_invert R s1 q I1 L1 O0) as (e & q' & Ie & Le & Oe & Cl). exists e, q'. auto.
    Qed.
    (** what a clip rule says about a piece of the arrangement *)
    Lemma kept_inside fr cr s e keep q eps : wf_xseg (sx s) -> In e (piece_dirs s) -> piece_kept fr cr (wind (chain_of ssubj arr)) e keep -> on_seg (sx s) q -> (0 < eps)%Q ->
      ~ near_contour (D + eps) items q -> keep = clip_keeps cr (inside fr (contours_wind (shape_contours items) q)) (inside fr (contours_wind (shape_contours items) q)).
    Proof.
      intros W Ie K O E N. assert (D0 : (0 <= D)%Q) by (change 0%Q with (inject_Z 0); rewrite <- Zle_Qle, <- drift_moved; apply drift_pos).
      destruct (interior_near (sx s) q (eps * (1 # 2)) W O ltac:(lra)) as (q1 & O1 & C1).
      assert (I1 : inside_seg (XS (fst e) (snd e)) q1).
      { unfold piece_dirs in Ie. apply in_app_or in Ie as [Ie|Ie].
        - destruct (backb (sc s)); [|destruct Ie]. destruct Ie as [<-|[]]. cbn [fst snd]. destruct (sx s); auto.
        - destruct (forwb (sc s)); [|destruct Ie]. destruct Ie as [<-|[]]. cbn [fst snd]. apply inside_swap. destruct (sx s); auto. }
      destruct (K q1 I1) as (e0 & E0 & Hk). set (d := (Qmin e0 eps * (1 # 2))%Q).
      assert (Hd : (0 < d < e0)%Q /\ (d <= eps * (1 # 2))%Q).
      { unfold d. destruct (Q.min_spec e0 eps) as [[Hm ->]|[Hm ->]]; split; try split; lra. }
      destruct Hd as [Hd1 Hd2]. specialize (Hk d Hd1).
      assert (P : forall p, close d q1 p -> wind (chain_of ssubj arr) p = contours_wind (shape_contours items) q).
      { intros p Cp. assert (Cq : close eps q p) by (eapply close_mono; [|eapply close_trans; eauto]; lra).
        rewrite arr_wind.
        - apply (contours_still eps); auto; [lra|]. intro X. apply N. eapply near_contour_mono; [|exact X]. lra.
        - intro X. apply N. eapply near_contour_close; [exact X|]. apply close_sym. auto. }
      rewrite !P in Hk; auto.
      - unfold bottom_side. destruct (_ =? _); split; cbn [fst snd]; apply Qabs_le_iff; split; lra.
      - unfold top_side. destruct (_ =? _); split; cbn [fst snd]; apply Qabs_le_iff; split; lra.
    Qed.
  End Arr.
End WithContracts.
