(** * The grid finds every meeting of two edges, outside two situations. *)
From Coq Require Import Lqa Qround.
From Verif Require Import Base Spec QLib SegmProofs PlanarGeo ModelFill ModelCross CrossProofs CrossPoint MarksProofs ModelSplit ModelFrag
  SplitProofs SplitPlanar SplitPass BinsProofs SplitApply SplitLoop SplitNear GridCover FragProofs.
Open Scope Z_scope.

Lemma grid_pos_mono g i j : 0 <= g_power g -> i <= j -> grid_pos g i <= grid_pos g j.
Proof. intros H L. unfold grid_pos. rewrite !Z.shiftl_mul_pow2 by auto. pose proof (Z.pow_pos_nonneg 2 (g_power g) ltac:(lia) H). nia. Qed.

(** ** Every column a segment passes has a fragment with the points of this column *)
Section Cols.
  Variables (g : grid) (index : nat) (s : xseg).
  Hypothesis Hg : 0 <= g_power g.
  Let x0 := px (sa s). Let y0 := py (sa s). Let width := px (sb s) - px (sa s).
  Let height := Z.abs (py (sb s) - py (sa s)).
  Variables (p k : Z).
  Hypothesis Hp : 0 <= p.
  Hypothesis Hk : k * width <= Z.shiftl height p.
  Hypothesis Wd : 0 < width.
  Let dw := Z.shiftl 1 (g_power g).
  Let inc := py (sa s) <=? py (sb s).
  Notation cols := (frag_cols index s width height p k dw inc).
  Variable q : qpt.
  Hypothesis On : on_seg s q.
  Let X := fst q. Let Y := snd q.

  Lemma cols_at n : forall i wp hp j,
    grid_pos g i <= x0 + wp -> x0 + wp <= grid_pos g (i + 1) -> 0 <= wp -> hp * width <= height * wp ->
    px (sb s) <= grid_pos g (i + Z.of_nat n + 1) -> grid_pos g (i + Z.of_nat n) <= px (sb s) ->
    (inject_Z (x0 + wp) <= X)%Q -> i <= j <= i + Z.of_nat n -> in_column g j q ->
    exists f, In (j, f) (cols n i (grid_pos g (i + 1) - x0) (x0 + wp) (if inc then y0 + hp else y0 - hp)) /\ rect_has (f_rect f) q.
  Proof.
    pose proof (on_range g s Wd q On) as [_ RX]. fold X in RX.
    induction n as [|n IH]; intros i wp hp j A B W0 Hh C D L Rj Cj.
    - assert (j = i) as -> by lia. simpl. eexists. split; [left; reflexivity|].
      pose proof (V_ge g s Wd q On hp wp Hh L) as V1. pose proof (V_end g s Wd q On) as V2.
      pose proof (Y_range s q hp height (conj V1 V2)) as YR.
      unfold rect_has, in_column in *. replace (i + Z.of_nat 0 + 1) with (i + 1) in C by lia. apply qz_le' in A, C.
      assert (Eh : if inc then y0 + height = py (sb s) else y0 - height = py (sb s)).
      { unfold inc, y0, height. destruct (py (sa s) <=? py (sb s)) eqn:E; lia. }
      fold X in Cj. fold inc in YR; fold X Y y0 in YR. fold X Y. destruct inc; simpl; rewrite <- Eh; repeat split; try tauto; lra.
    - cbn [frag_cols].
      set (w := grid_pos g (i + 1) - x0). set (hm := Z.shiftr (w * k) p). set (hM := Z.max hm (- (- (height * w) / width))).
      assert (W1 : 0 <= w) by (unfold w; lia).
      assert (Hm : hm * width <= height * w) by (apply h_min_le; auto).
      assert (HM : height * w <= hM * width) by (apply h_max_ge; auto).
      assert (Ew : x0 + w = grid_pos g (i + 1)) by (unfold w; lia).
      destruct (Z.eq_dec j i) as [->|Nj].
      + assert (LE : (X <= inject_Z (x0 + w))%Q) by (rewrite Ew; apply Cj).
        pose proof (V_ge g s Wd q On hp wp Hh L) as V1. pose proof (V_le g s Wd q On hM w HM LE) as V2.
        pose proof (Y_range s q hp hM (conj V1 V2)) as YR. fold inc in YR; fold X Y y0 in YR.
        fold x0 y0. destruct inc; (eexists; split; [left; reflexivity|]);
          unfold rect_has; simpl; fold X Y; repeat split; try tauto; lra.
      + destruct (IH (i + 1) w hm j) as (f & I & R); auto; try lia.
        * rewrite (grid_pos_next g (i + 1)) by auto. pose proof (shift_pos g Hg). lia.
        * replace (i + 1 + Z.of_nat n + 1) with (i + Z.of_nat (S n) + 1) by lia. auto.
        * replace (i + 1 + Z.of_nat n) with (i + Z.of_nat (S n)) by lia. auto.
        * rewrite Ew. pose proof (grid_pos_mono g (i + 1) j Hg ltac:(lia)) as M. apply qz_le' in M. destruct Cj as [Cj _]. fold X in Cj. lra.
        * exists f. split; auto. fold x0 y0.
          replace (grid_pos g (i + 1 + 1) - x0) with (w + dw) in I by (rewrite (grid_pos_next g (i + 1)) by auto; unfold w, dw; lia).
          destruct inc; right; exact I.
  Qed.
End Cols.

Lemma horizontal_at g index s q n j : 0 <= g_power g -> py (sa s) = py (sb s) -> (inject_Z (py (sa s)) == snd q)%Q ->
  (fst q <= inject_Z (px (sb s)))%Q -> in_column g j q -> forall i x, grid_pos g i <= x ->
  px (sb s) <= grid_pos g (i + Z.of_nat n + 1) -> (inject_Z x <= fst q)%Q -> i <= j <= i + Z.of_nat n ->
  exists f, In (j, f) (frag_horizontal index s g n i x) /\ rect_has (f_rect f) q.
Proof.
  intros Hg Ey EY RX Cj. induction n as [|n IH]; intros i x A C L Rj; cbn [frag_horizontal].
  - assert (j = i) as -> by lia. eexists. split; [left; reflexivity|]. unfold rect_has. simpl. rewrite EY. repeat split; lra.
  - destruct (Z.eq_dec j i) as [->|Nj].
    + eexists. split; [left; reflexivity|]. unfold rect_has. simpl. destruct Cj as [_ Cj]. rewrite EY. repeat split; lra.
    + destruct (IH (i + 1) (grid_pos g (i + 1))) as (f & I & R); try lia.
      * replace (i + 1 + Z.of_nat n + 1) with (i + Z.of_nat (S n) + 1) by lia. auto.
      * pose proof (grid_pos_mono g (i + 1) j Hg ltac:(lia)) as M. apply qz_le' in M. destruct Cj as [Cj _]. lra.
      * exists f. split; auto. right. auto.
Qed.

(** the columns a segment passes *)
Definition passes (g : grid) (s : xseg) (j : Z) : Prop :=
  grid_index g (px (sa s)) <= j <= (if px (sa s) =? px (sb s) then grid_index g (px (sa s)) else grid_index g (px (sb s) - 1)).

Theorem fragments_at g index s q j : 0 <= g_power g -> CrossPoint.bounded s -> wf_xseg s -> on_seg s q -> passes g s j -> in_column g j q ->
  exists f, In (j, f) (add_segment g index s) /\ rect_has (f_rect f) q.
Proof.
  intros Hg B W On Pj Cj. unfold passes in Pj. unfold add_segment.
  pose proof (grid_index_spec g (px (sa s)) Hg) as Ia. pose proof (grid_index_spec g (px (sb s) - 1) Hg) as Ib.
  assert (Wx : px (sa s) < px (sb s) \/ (px (sa s) = px (sb s) /\ py (sa s) < py (sb s))) by (unfold wf_xseg, pt_lt in W; lia).
  assert (XR : px (sa s) <= px (sb s) -> (inject_Z (px (sa s)) <= fst q <= inject_Z (px (sb s)))%Q).
  { intro H. destruct On as (t & T & EX & _). rewrite EX. unfold qx. apply qz_le' in H. nra. }
  destruct (py (sa s) =? py (sb s)) eqn:EY.
  - apply Z.eqb_eq in EY. assert (Hx : px (sa s) < px (sb s)) by lia. specialize (XR ltac:(lia)).
    rewrite (proj2 (Z.eqb_neq _ _)) in Pj by lia.
    apply horizontal_at; auto; try tauto; try lia.
    + destruct On as (t & T & _ & EYq). rewrite EYq. unfold qy. rewrite EY. ring.
    + rewrite Z2Nat.id by lia.
      replace (grid_index g (px (sa s)) + (grid_index g (px (sb s) - 1) - grid_index g (px (sa s))) + 1) with (grid_index g (px (sb s) - 1) + 1) by lia. lia.
  - apply Z.eqb_neq in EY.
    assert (Whole : j = grid_index g (px (sa s)) ->
      exists f, In (j, f) [(grid_index g (px (sa s)), with_index_and_segment index s)] /\ rect_has (f_rect f) q).
    { intro H. eexists. split; [left; rewrite H; reflexivity|]. specialize (XR ltac:(lia)).
      destruct On as (t & T & EX & EYq). unfold qy in EYq.
      unfold rect_has. simpl.
      unfold y_min, y_max. repeat split; try tauto; try lra; destruct (py (sa s) <? py (sb s)) eqn:E; rewrite EYq;
        [assert (K : py (sa s) <= py (sb s)) by lia|assert (K : py (sb s) <= py (sa s)) by lia|assert (K : py (sa s) <= py (sb s)) by lia|assert (K : py (sb s) <= py (sa s)) by lia]; apply qz_le' in K; nra. }
    destruct (px (sa s) =? px (sb s)) eqn:EX.
    + apply Whole. lia.
    + apply Z.eqb_neq in EX. assert (Hx : px (sa s) < px (sb s)) by lia.
      destruct (_ <=? _) eqn:EI.
      * apply Whole. lia.
      * set (i0 := grid_index g (px (sa s))) in *. set (i1 := grid_index g (px (sb s) - 1)) in *.
        set (width := px (sb s) - px (sa s)). set (height := Z.abs (py (sb s) - py (sa s))).
        assert (Wd : 0 < width) by (unfold width; lia).
        assert (Wh : 0 < height) by (unfold height; lia).
        assert (Pp : 0 <= 63 - Z.log2 (width * height)).
        { assert (width * height < 2 ^ 64).
          { destruct B as [[B1 B2] [B3 B4]]. unfold width, height. change (2 ^ 30) with 1073741824 in *. change (2 ^ 64) with 18446744073709551616. nia. }
          assert (Z.log2 (width * height) < 64) by (apply Z.log2_lt_pow2; nia). lia. }
        pose proof (cols_at g index s Hg (63 - Z.log2 (width * height)) (Z.shiftl height (63 - Z.log2 (width * height)) / width)
           Pp) as CC. fold width height in CC.
        specialize (CC ltac:(pose proof (Z.mul_div_le (Z.shiftl height (63 - Z.log2 (width * height))) width Wd); lia) Wd q On
           (Z.to_nat (i1 - i0)) i0 0 0 j).
        rewrite !Z.add_0_r, !Z.sub_0_r in CC. rewrite Z2Nat.id in CC by lia.
        replace (i0 + (i1 - i0)) with i1 in CC by lia.
        destruct CC as (f & I & R); auto; try lia.
        -- apply XR. lia.
        -- exists f. split; auto. destruct (py (sa s) <=? py (sb s)); exact I.
Qed.

(** ** A column that both segments pass in a common point *)
Lemma idx_le g x c : 0 <= g_power g -> (c <= grid_index g x <-> grid_pos g c <= x).
Proof.
  intro H. unfold grid_index, grid_pos. rewrite Z.shiftr_div_pow2, Z.shiftl_mul_pow2 by auto. pose proof (Z.pow_pos_nonneg 2 (g_power g) ltac:(lia) H) as P. split; intro K.
  - pose proof (Z.mul_div_le (x - g_min g) (2 ^ g_power g) P). nia.
  - apply Z.div_le_lower_bound; lia.
Qed.
Lemma idx_lt g x c : 0 <= g_power g -> (grid_index g x < c <-> x < grid_pos g c).
Proof. intro H. pose proof (idx_le g x c H). lia. Qed.

Lemma on_x s q : wf_xseg s -> on_seg s q -> (inject_Z (px (sa s)) <= fst q <= inject_Z (px (sb s)))%Q.
Proof. intros W (t & T & EX & _). assert (L : px (sa s) <= px (sb s)) by (unfold wf_xseg, pt_lt in W; lia). rewrite EX. unfold qx. apply qz_le' in L. nra. Qed.

(** [s] ends in the left border of column [c] *)
Definition ends_at (g : grid) (s : xseg) (c : Z) : Prop := px (sa s) < px (sb s) /\ px (sb s) = grid_pos g c.
Lemma column_of g s q : 0 <= g_power g -> wf_xseg s -> on_seg s q -> let c := grid_index g (Qfloor (fst q)) in
  in_column g c q /\ (passes g s c \/ (ends_at g s c /\ (fst q == inject_Z (px (sb s)))%Q)).
Proof.
  intros Hg W On c. pose proof (on_x s q W On) as [Xa Xb]. pose proof (Qfloor_le (fst q)) as F1. pose proof (Qlt_floor (fst q)) as F2.
  pose proof (grid_index_spec g (Qfloor (fst q)) Hg) as [I1 I2]. fold c in I1, I2.
  assert (Wx : px (sa s) < px (sb s) \/ px (sa s) = px (sb s)) by (unfold wf_xseg, pt_lt in W; lia).
  assert (Fa : px (sa s) <= Qfloor (fst q)) by (rewrite <- (Qfloor_Z (px (sa s))); apply Qfloor_resp_le; auto).
  split.
  - unfold in_column. apply qz_le' in I1. split; [lra|].
    assert (K : Qfloor (fst q) + 1 <= grid_pos g (c + 1)) by lia. apply qz_le' in K. lra.
  - unfold passes. assert (A : grid_index g (px (sa s)) <= c).
    { unfold c. apply idx_le; auto. pose proof (grid_index_spec g (px (sa s)) Hg). lia. }
    destruct Wx as [Wx|Wx].
    + rewrite (proj2 (Z.eqb_neq _ _)) by lia. destruct (Z_le_gt_dec (grid_pos g c) (px (sb s) - 1)) as [L|G].
      * left. split; auto. apply idx_le; auto.
      * right. assert (E : px (sb s) = Qfloor (fst q)).
        { assert (Qfloor (fst q) <= px (sb s)) by (rewrite <- (Qfloor_Z (px (sb s))); apply Qfloor_resp_le; auto). lia. }
        assert (E2 : px (sb s) = grid_pos g c) by lia. split; [split; auto|]. assert (F3 : (inject_Z (px (sb s)) <= fst q)%Q) by (rewrite E; auto). lra.
    + left. rewrite Wx, Z.eqb_refl. split; [rewrite <- Wx; auto|]. rewrite <- Wx in *.
      assert (E : Qfloor (fst q) = px (sa s)).
      { assert (Qfloor (fst q) <= px (sa s)) by (rewrite <- (Qfloor_Z (px (sa s))); apply Qfloor_resp_le; auto). lia. }
      unfold c. rewrite E. lia.
Qed.

Lemma common_column g s t q : 0 <= g_power g -> wf_xseg s -> wf_xseg t -> on_seg s q -> on_seg t q ->
  (exists j, passes g s j /\ passes g t j /\ in_column g j q) \/
  (exists c, ends_at g s c /\ px (sa t) = grid_pos g c /\ (fst q == inject_Z (grid_pos g c))%Q) \/
  (exists c, ends_at g t c /\ px (sa s) = grid_pos g c /\ (fst q == inject_Z (grid_pos g c))%Q).
Proof.
  intros Hg Ws Wt Os Ot. destruct (column_of g s q Hg Ws Os) as [Cq As]. destruct (column_of g t q Hg Wt Ot) as [_ At].
  set (c := grid_index g (Qfloor (fst q))) in *.
  assert (K : forall a b, wf_xseg a -> wf_xseg b -> on_seg a q -> on_seg b q -> ends_at g a c -> (fst q == inject_Z (px (sb a)))%Q ->
    (passes g a (c - 1) /\ passes g b (c - 1) /\ in_column g (c - 1) q) \/ (px (sa b) = grid_pos g c /\ (fst q == inject_Z (grid_pos g c))%Q)).
  { intros a b Wa Wb Oa Ob [E1 E2] Eq. rewrite E2 in Eq. pose proof (on_x b q Wb Ob) as [B1 B2].
    assert (L1 : px (sa b) <= grid_pos g c) by (rewrite Eq in B1; rewrite <- Zle_Qle in B1; auto).
    assert (L2 : grid_pos g c <= px (sb b)) by (rewrite Eq in B2; rewrite <- Zle_Qle in B2; auto).
    destruct (Z.eq_dec (px (sa b)) (grid_pos g c)) as [E|N]; [right; auto|left].
    assert (G : grid_pos g (c - 1) <= grid_pos g c - 1).
    { replace c with (c - 1 + 1) at 2 by lia. rewrite grid_pos_next by auto. pose proof (shift_pos g Hg). lia. }
    assert (P : forall u, px (sa u) < grid_pos g c -> grid_pos g c <= px (sb u) -> passes g u (c - 1)).
    { intros u U1 U2. unfold passes. rewrite (proj2 (Z.eqb_neq _ _)) by lia. split.
      - pose proof (proj2 (idx_lt g (px (sa u)) c Hg) U1). lia.
      - apply idx_le; auto. lia. }
    split; [apply P; lia|]. split; [apply P; lia|]. unfold in_column. replace (c - 1 + 1) with c by lia. apply qz_le' in G. rewrite Eq.
    rewrite inject_Z_minus in G || idtac. split; [|lra]. rewrite <- Zle_Qle in *. lia. }
  destruct As as [Ps|[Es Xs]].
  - destruct At as [Pt|[Et Xt]].
    + left. exists c. auto.
    + destruct (K t s Wt Ws Ot Os Et Xt) as [(A & B & D)|[A B]]; [left; exists (c - 1); auto|right; right; exists c; auto].
  - destruct (K s t Ws Wt Os Ot Es Xs) as [(A & B & D)|[A B]]; [left; exists (c - 1); auto|right; left; exists c; auto].
Qed.

(** ** Where the mark of a crossing lies *)
Lemma near_rect lo hi x p c r : (Qabs (inject_Z c - x) < 1)%Q -> Z.abs (p - c) <= r -> (inject_Z lo <= x <= inject_Z hi)%Q -> lo - r <= p <= hi + r.
Proof. intros A B C. pose proof (near_between _ _ _ _ A C). lia. Qed.

Definition close (r : Z) (p : pt) (q : qpt) : Prop :=
  (forall lo hi, (inject_Z lo <= fst q <= inject_Z hi)%Q -> lo - r <= px p <= hi + r) /\
  (forall lo hi, (inject_Z lo <= snd q <= inject_Z hi)%Q -> lo - r <= py p <= hi + r).
Lemma close_self r p : 0 <= r -> close r p (qof p).
Proof. intro H. split; intros lo hi [A B]; cbn [qof fst snd] in *; unfold qx, qy in *; rewrite <- !Zle_Qle in *; lia. Qed.

Lemma cross_where s t r c : wf_xseg s -> wf_xseg t -> CrossPoint.bounded s -> CrossPoint.bounded t -> 1 <= r -> cross s t r = Some c -> c_type c <> Overlay ->
  exists q, on_seg s q /\ on_seg t q /\ (inside_seg s q \/ inside_seg t q) /\ close r (c_point c) q.
Proof.
  intros Ws Wt Bs Bt Hr E NO. destruct (cross_cases s t r Ws Wt) as [CL|NC TO|p Hp Dx II|p Hp Dx II|P]; try discriminate; injection E as <-.
  - exfalso. apply NO. reflexivity.
  - exists (qof p). split; [apply II|]. split; [destruct Hp as [->| ->]; [apply on_seg_end_a|apply on_seg_end_b]|]. split; auto. apply close_self. lia.
  - exists (qof p). split; [destruct Hp as [->| ->]; [apply on_seg_end_a|apply on_seg_end_b]|]. split; [apply II|]. split; auto. apply close_self. lia.
  - destruct (cross_point_near s t Bs Bt P) as (NX & NY & _). destruct (properly_meet s t P) as [I1 I2].
    exists (meet s t). split; [apply I1|]. split; [apply I2|]. split; auto.
    assert (Sq : Z.sqrt r <= r) by (apply Z.sqrt_le_lin; lia).
    assert (K : forall p, sqr_dist p (cross_point s t) <= r -> close r p (meet s t)).
    { intros p H. apply SplitNear.sqr_dist_reach in H as [HX HY]; [|lia]. split; intros lo hi C; [eapply (near_rect lo hi _ _ _ r NX); [lia|exact C]|eapply (near_rect lo hi _ _ _ r NY); [lia|exact C]]. }
    assert (K0 : close r (cross_point s t) (meet s t)) by (apply K; rewrite sqr_dist_refl; lia).
    clear NO. unfold middle_cross.
    destruct (_ && _); [exact K0|].
    destruct ((sqr_dist (sa s) (cross_point s t) <=? r) || _ || _ || _) eqn:E; [|exact K0].
    set (ra0 := sqr_dist (sa s) (cross_point s t)) in *. set (rb0 := sqr_dist (sb s) (cross_point s t)) in *.
    set (ra1 := sqr_dist (sa t) (cross_point s t)) in *. set (rb1 := sqr_dist (sb t) (cross_point s t)) in *.
    assert (M : Z.min (Z.min ra0 rb0) (Z.min ra1 rb1) <= r) by lia.
    destruct (Z.leb_spec (Z.min ra0 rb0) (Z.min ra1 rb1)) as [L|L].
    + destruct (is_not_line_point _ _ _); [|exact K0]. cbn [c_point]. apply K. destruct (Z.ltb_spec ra0 rb0); fold ra0 rb0; lia.
    + destruct (is_not_line_point _ _ _); [|exact K0]. cbn [c_point]. apply K. destruct (Z.ltb_spec ra1 rb1); fold ra1 rb1; lia.
Qed.

(** ** A bin looks at every pair of fragments whose boxes meet *)
Notation by_min_y := (fun a b : fragment => (r_min_y (f_rect a) <=? r_min_y (f_rect b)) = true).
Definition pair_of (r : Z) (fi fj : fragment) : list mark * bool := if xseg_ltb (f_seg fi) (f_seg fj) then cross_fragments fi fj r else cross_fragments fj fi r.
Lemma bin_row_found r fi fj l : StronglySorted by_min_y l -> In fj l -> r_min_y (f_rect fj) <= r_max_y (f_rect fi) ->
  is_intersect_border_include (f_rect fi) (f_rect fj) = true ->
  (forall m, In m (fst (pair_of r fi fj)) -> In m (fst (bin_row r fi l))) /\ (snd (pair_of r fi fj) = true -> snd (bin_row r fi l) = true).
Proof.
  intros Sl I Y B. induction Sl as [|f l Sl IH Fl]; [destruct I|]. cbn [bin_row].
  assert (Lf : r_min_y (f_rect f) <= r_max_y (f_rect fi)).
  { destruct I as [<-|I]; auto. rewrite Forall_forall in Fl. specialize (Fl fj I). cbv beta in Fl. lia. }
  rewrite (proj2 (Z.ltb_ge _ _)) by lia. destruct I as [<-|I].
  - rewrite B. cbn [negb]. fold (pair_of r fi f). destruct (pair_of r fi f) as [ms rd]. destruct (bin_row r fi l) as [ms' rd']. cbn [fst snd].
    split; [intros m H; apply in_app_iff; auto|intros ->; auto].
  - specialize (IH I). destruct IH as [IH1 IH2]. destruct (negb _); auto. fold (pair_of r fi f). destruct (pair_of r fi f) as [ms rd]. destruct (bin_row r fi l) as [ms' rd']. cbn [fst snd] in *.
    split; [intros m H; apply in_app_iff; auto|intro H; rewrite (IH2 H); apply orb_true_r].
Qed.
Lemma intersect_sym a b : is_intersect_border_include a b = is_intersect_border_include b a.
Proof. unfold is_intersect_border_include. destruct (r_min_x a <=? r_max_x b), (r_min_x b <=? r_max_x a), (r_min_y a <=? r_max_y b), (r_min_y b <=? r_max_y a); auto. Qed.

Lemma bin_rows_found r fs ft l : xseg_lt (f_seg fs) (f_seg ft) -> StronglySorted by_min_y l -> In fs l -> In ft l ->
  is_intersect_border_include (f_rect fs) (f_rect ft) = true ->
  (forall m, In m (fst (cross_fragments fs ft r)) -> In m (fst (bin_rows r l))) /\ (snd (cross_fragments fs ft r) = true -> snd (bin_rows r l) = true).
Proof.
  intros L Sl Is It B.
  assert (P1 : pair_of r fs ft = cross_fragments fs ft r) by (unfold pair_of; rewrite (proj2 (xseg_ltb_lt _ _) L); auto).
  assert (P2 : pair_of r ft fs = cross_fragments fs ft r).
  { unfold pair_of. destruct (xseg_ltb (f_seg ft) (f_seg fs)) eqn:E; auto. apply xseg_ltb_lt in E. exfalso. eapply xseg_lt_irrefl, xseg_lt_trans; eauto. }
  assert (Yb : r_min_y (f_rect ft) <= r_max_y (f_rect fs) /\ r_min_y (f_rect fs) <= r_max_y (f_rect ft)) by (unfold is_intersect_border_include in B; lia).
  assert (B' : is_intersect_border_include (f_rect ft) (f_rect fs) = true) by (rewrite intersect_sym; auto).
  induction Sl as [|f l Sl IH Fl]; [destruct Is|]. cbn [bin_rows].
  assert (D : fs <> ft) by (intros ->; eapply xseg_lt_irrefl; eauto).
  destruct Is as [<-|Is].
  - destruct It as [E|It]; [congruence|]. destruct (bin_row_found r f ft l Sl It (proj1 Yb) B) as [A1 A2]. rewrite P1 in A1, A2.
    destruct (bin_row r f l) as [ms rd]. destruct (bin_rows r l) as [ms' rd']. cbn [fst snd] in *.
    split; [intros m H; apply in_app_iff; auto|intro H; rewrite (A2 H); auto].
  - destruct It as [<-|It].
    + destruct (bin_row_found r f fs l Sl Is (proj2 Yb) B') as [A1 A2]. rewrite P2 in A1, A2.
      destruct (bin_row r f l) as [ms rd]. destruct (bin_rows r l) as [ms' rd']. cbn [fst snd] in *.
      split; [intros m H; apply in_app_iff; auto|intro H; rewrite (A2 H); auto].
    + destruct (IH Is It) as [A1 A2]. destruct (bin_row r f l) as [ms rd]. destruct (bin_rows r l) as [ms' rd']. cbn [fst snd] in *.
      split; [intros m H; apply in_app_iff; auto|intro H; rewrite (A2 H); apply orb_true_r].
Qed.

(** ** The whole pass *)
(** two situations the grid does not see: edges that overlap along a line, and an edge that ends inside a vertical edge on the border of two columns *)
Record grid_safe (g : grid) (xs : list xseg) : Prop := {
  no_overlap : forall s t, In s xs -> In t xs -> s <> t -> colinear s t -> touch_only s t;
  no_border_end : forall s t c, In s xs -> In t xs -> px (sa s) < px (sb s) -> px (sa t) = px (sb t) -> px (sa t) = grid_pos g c -> ~ inside_seg t (qof (sb s)) }.
Definition in_range (g : grid) (xs : list xseg) : Prop := forall s, In s xs -> g_min g <= px (sa s) /\ px (sb s) <= g_max g.

Lemma contains_close rc p q r : rect_has rc q -> close r p q -> contains_with_radius rc p r = true.
Proof.
  intros [HX HY] [CX CY]. specialize (CX _ _ HX). specialize (CY _ _ HY). unfold contains_with_radius.
  rewrite !andb_true_iff, !Z.leb_le. lia.
Qed.
Lemma intersect_has a b q : rect_has a q -> rect_has b q -> is_intersect_border_include a b = true.
Proof.
  intros [[A1 A2] [A3 A4]] [[B1 B2] [B3 B4]]. unfold is_intersect_border_include. rewrite !andb_true_iff, !Z.leb_le.
  assert (T : forall u v x, (inject_Z u <= x)%Q -> (x <= inject_Z v)%Q -> u <= v) by (intros u v x U V; rewrite Zle_Qle; lra).
  repeat split; eapply T; eauto.
Qed.
Lemma wrap32_id r : 0 <= r < 2 ^ 31 -> wrap32 r = r.
Proof. intro H. unfold wrap32. rewrite Z.mod_small; change (2 ^ 31) with 2147483648 in *; change (2 ^ 32) with 4294967296; lia. Qed.
Lemma cross_fragments_all fs ft r c : cross (f_seg fs) (f_seg ft) r = Some c -> c_type c <> Overlay -> 0 <= r < 2 ^ 31 ->
  contains_with_radius (f_rect fs) (c_point c) r = true -> contains_with_radius (f_rect ft) (c_point c) r = true ->
  cross_fragments fs ft r = cross_marks (f_index fs) (f_index ft) (f_seg fs) (f_seg ft) r.
Proof.
  intros E NO Hr C1 C2. unfold cross_fragments, cross_marks. rewrite E, (wrap32_id r Hr), C1, C2. destruct (c_type c); auto. congruence.
Qed.

Lemma inside_x s q : wf_xseg s -> px (sa s) < px (sb s) -> on_seg s q -> (fst q == inject_Z (px (sa s)) \/ fst q == inject_Z (px (sb s)))%Q -> ~ inside_seg s q.
Proof.
  intros W L (u & U & EX & EY) H [_ NE]. apply NE. unfold is_end, q_is. unfold qx, qy in *.
  assert (P : (0 < inject_Z (px (sb s)) - inject_Z (px (sa s)))%Q) by (rewrite <- qz_sub; change 0%Q with (inject_Z 0); rewrite <- Zlt_Qlt; lia).
  destruct H as [H|H].
  - left. assert (E : (u == 0)%Q). { rewrite H in EX. assert ((u * (inject_Z (px (sb s)) - inject_Z (px (sa s))) == 0)%Q) by lra. destruct (Qmult_integral _ _ H0); auto. lra. }
    rewrite EX, EY, E. split; ring.
  - right. assert (E : (u == 1)%Q). { rewrite H in EX. assert (((u - 1) * (inject_Z (px (sb s)) - inject_Z (px (sa s))) == 0)%Q) by lra. destruct (Qmult_integral _ _ H0); lra. }
    rewrite EX, EY, E. split; ring.
Qed.

Section Pass.
  Variables (g : grid) (xs : list xseg) (r : Z).
  Hypothesis Hg : 0 <= g_power g.
  Hypothesis W : wf_sorted xs.
  Hypothesis B : Forall CrossPoint.bounded xs.
  Hypothesis Hr : 1 <= r < 2 ^ 31.
  Hypothesis Rg : in_range g xs.
  Hypothesis Safe : grid_safe g xs.

  Lemma in_columns s j : In s xs -> wf_xseg s -> passes g s j -> In j (columns g).
  Proof.
    intros I Ws P. destruct (Rg s I) as [R1 R2]. unfold passes in P. unfold columns.
    assert (M : forall x, g_min g <= x <= g_max g -> 0 <= grid_index g x <= grid_index g (g_max g)).
    { intros x H. split; apply idx_le; auto.
      - unfold grid_pos. rewrite Z.shiftl_0_l. lia.
      - pose proof (grid_index_spec g x Hg). lia. }
    assert (Wx : px (sa s) <= px (sb s)) by (unfold wf_xseg, pt_lt in Ws; lia).
    pose proof (M (px (sa s)) ltac:(lia)) as Ma.
    assert (0 <= j <= grid_index g (g_max g)).
    { destruct (Z.eqb_spec (px (sa s)) (px (sb s))); [lia|]. pose proof (M (px (sb s) - 1) ltac:(lia)). lia. }
    apply in_map_iff. exists (Z.to_nat j). split; [lia|]. apply in_seq. lia.
  Qed.

  Lemma fragment_in i s j f : nth_error xs i = Some s -> In (j, f) (add_segment g i s) -> In f (column (fragments g xs) j).
  Proof.
    intros H I. unfold column, fragments. apply in_map_iff. exists (j, f). split; auto. apply filter_In. cbn [fst]. rewrite Z.eqb_refl. split; auto.
    apply in_flat_map. exists (i, s). split; auto. apply SplitProofs.enum_nth. auto.
  Qed.

  (** the point of a crossing lies in a column both edges pass *)
  Lemma seen_in_column s t q : In s xs -> In t xs -> wf_xseg s -> wf_xseg t -> on_seg s q -> on_seg t q -> inside_seg s q \/ inside_seg t q ->
    exists j, passes g s j /\ passes g t j /\ in_column g j q.
  Proof.
    intros Is It Ws Wt Os Ot In_.
    assert (K : forall a b c, In a xs -> In b xs -> wf_xseg a -> wf_xseg b -> on_seg a q -> on_seg b q -> inside_seg a q \/ inside_seg b q ->
      ends_at g a c -> px (sa b) = grid_pos g c -> (fst q == inject_Z (grid_pos g c))%Q -> False).
    { intros a b c Ia Ib Wa Wb Oa Ob J [E1 E2] E3 Eq.
      assert (Na : ~ inside_seg a q) by (apply inside_x; auto; right; rewrite E2; auto).
      destruct J as [J|J]; auto.
      assert (Wx : px (sa b) < px (sb b) \/ px (sa b) = px (sb b)) by (unfold wf_xseg, pt_lt in Wb; lia).
      destruct Wx as [Wx|Wx].
      - revert J. apply inside_x; auto. left. rewrite E3. auto.
      - apply (no_border_end _ _ Safe a b c Ia Ib E1 Wx E3).
        assert (Qe : q_is q (sb a)).
        { destruct Oa as (u & U & EX & EY). unfold qx, qy in *.
          assert (P : (0 < inject_Z (px (sb a)) - inject_Z (px (sa a)))%Q) by (rewrite <- qz_sub; change 0%Q with (inject_Z 0); rewrite <- Zlt_Qlt; lia).
          rewrite Eq, <- E2 in EX. assert (Z0' : ((u - 1) * (inject_Z (px (sb a)) - inject_Z (px (sa a))) == 0)%Q) by lra.
          assert (Eu : (u == 1)%Q) by (destruct (Qmult_integral _ _ Z0'); lra).
          unfold q_is, qx, qy. split; [rewrite Eq, E2; reflexivity|rewrite EY, Eu; ring]. }
        apply (inside_q_is b q (sb a) Qe J). }
    destruct (common_column g s t q Hg Ws Wt Os Ot) as [H|[(c & E1 & E2 & E3)|(c & E1 & E2 & E3)]]; auto; exfalso.
    - apply (K s t c); auto.
    - apply (K t s c); auto. tauto.
  Qed.

  Lemma pair_found i j s t : (i < j)%nat -> nth_error xs i = Some s -> nth_error xs j = Some t ->
    (fst (cross_marks i j s t r) = [] /\ snd (cross_marks i j s t r) = false) \/
    exists col, In col (columns g) /\ (forall m, In m (fst (cross_marks i j s t r)) -> In m (fst (bin_split r (column (fragments g xs) col)))) /\
      (snd (cross_marks i j s t r) = true -> snd (bin_split r (column (fragments g xs) col)) = true).
  Proof.
    intros L Hi Hj. pose proof (wf_sorted_wf _ _ _ W Hi) as Ws. pose proof (wf_sorted_wf _ _ _ W Hj) as Wt.
    assert (Is : In s xs) by (eapply nth_error_In; eauto). assert (It : In t xs) by (eapply nth_error_In; eauto).
    assert (Bs : CrossPoint.bounded s) by (rewrite Forall_forall in B; auto). assert (Bt : CrossPoint.bounded t) by (rewrite Forall_forall in B; auto).
    assert (NE : s <> t) by (eapply wf_sorted_nth; eauto; lia).
    assert (LT : xseg_lt s t) by (eapply SS_nth; eauto; apply W).
    destruct (cross s t r) as [c|] eqn:E.
    2:{ left. unfold cross_marks. rewrite E. auto. }
    assert (DO : c_type c = Overlay \/ c_type c <> Overlay) by (destruct (c_type c); auto; right; discriminate).
    destruct DO as [O|NO].
    - left. destruct (cross_cases s t r Ws Wt) as [CL|NC TO|p Hp Dx II|p Hp Dx II|P]; try discriminate; injection E as <-; try discriminate.
      + split; [apply marks_exact; auto; try lia; apply (no_overlap _ _ Safe); auto|].
        unfold cross_marks. destruct (cross_cases s t r Ws Wt) as [CL'|NC TO|p Hp Dx II|p Hp Dx II|P]; [cbn; destruct (collinear s t) as [[[? ?] ?] ?]; auto|auto|auto|auto|].
        exfalso. pose proof (properly_ends s t P) as (X & _). apply X. apply CL.
      + exfalso. destruct (middle_cases s t r P ltac:(lia)); discriminate.
    - right. destruct (cross_where s t r c Ws Wt Bs Bt ltac:(lia) E NO) as (q & Os & Ot & J & Cl).
      destruct (seen_in_column s t q Is It Ws Wt Os Ot J) as (col & Ps & Pt & Cq).
      exists col. split; [apply (in_columns s); auto|].
      destruct (fragments_at g i s q col Hg Bs Ws Os Ps Cq) as (fs & Fs & Rs). destruct (fragments_at g j t q col Hg Bt Wt Ot Pt Cq) as (ft & Ft & Rt).
      destruct (add_segment_ids _ _ _ _ Fs) as [A1 A2]. destruct (add_segment_ids _ _ _ _ Ft) as [B1 B2]. cbn [snd] in *.
      assert (EQ : cross_fragments fs ft r = cross_marks i j s t r).
      { rewrite <- A1, <- A2, <- B1, <- B2. apply (cross_fragments_all fs ft r c); rewrite ?A2, ?B2; auto; try lia; eapply contains_close; eauto. }
      rewrite <- EQ. unfold bin_split. apply bin_rows_found.
      + rewrite A2, B2. auto.
      + apply isort_sorted; intros; rewrite ?Z.leb_le in *; try (rewrite !Z.leb_gt in *); lia.
      + apply isort_in. exact (fragment_in i s col fs Hi Fs).
      + apply isort_in. exact (fragment_in j t col ft Hj Ft).
      + eapply intersect_has; eauto.
  Qed.

  Lemma no_border_mark i k p : ~ In (k, p) (on_border_split (grid_pos g i) (column (fragments g xs) i) (on_border g (fragments g xs) i)).
  Proof.
    intro H. unfold on_border_split in H. apply border_marks_ok in H.
    2:{ apply isort_sorted; intros; rewrite ?Z.leb_le in *; try (rewrite !Z.leb_gt in *); lia. }
    destruct H as [A (v & Bv & E & L)].
    rewrite isort_in in A. rewrite isort_in in Bv. apply in_map_iff in A as (f & <- & Hf). apply filter_In in Hf as [Hf Ef].
    unfold on_border in Bv. apply filter_In in Bv as [Hv Ev].
    apply column_ids in Hf. apply column_ids in Hv. rewrite !andb_true_iff, !Z.eqb_eq in Ev. apply Z.eqb_eq in Ef.
    pose proof (wf_sorted_wf _ _ _ W Hv) as Wv. pose proof (wf_sorted_wf _ _ _ W Hf) as Wf.
    apply nth_error_In in Hf. apply nth_error_In in Hv. destruct Ev as [[V1 _] V2].
    set (s := f_seg v) in *. set (t := f_seg f) in *. clearbody s t. clear E v f k.
    assert (Yv : py (sa s) < py (sb s)) by (unfold wf_xseg, pt_lt in Wv; lia).
    unfold y_min, y_max in L. rewrite (proj2 (Z.ltb_lt _ _) Yv) in L.
    assert (Ins : inside_seg s (qof (sb t))).
    { split.
      - exists (inject_Z (py (sb t) - py (sa s)) / inject_Z (py (sb s) - py (sa s)))%Q.
        assert (P : (0 < inject_Z (py (sb s) - py (sa s)))%Q) by (change 0%Q with (inject_Z 0); rewrite <- Zlt_Qlt; lia).
        split; [split|].
        + apply Qle_shift_div_l; auto. rewrite Qmult_0_l. change 0%Q with (inject_Z 0). rewrite <- Zle_Qle. lia.
        + apply Qle_shift_div_r; auto. rewrite Qmult_1_l. rewrite <- Zle_Qle. lia.
        + cbn [qof fst snd]. unfold qx, qy. rewrite <- V1, Ef, V2. split.
          * ring.
          * rewrite !qz_sub in *. field. lra.
      - intro N. unfold is_end, q_is in N. cbn [qof fst snd] in N. unfold qx, qy in N. rewrite !(fun a b => conj (proj1 (qz_eq a b)) (proj2 (qz_eq a b))) in N || idtac.
        destruct N as [[_ N]|[_ N]]; apply (proj1 (qz_eq _ _)) in N; lia. }
    assert (Wx : px (sa t) < px (sb t) \/ px (sa t) = px (sb t)) by (unfold wf_xseg, pt_lt in Wf; lia). destruct Wx as [Wx|Wx].
    - apply (no_border_end _ _ Safe t s i Hf Hv Wx V1 V2 Ins).
    - assert (NE : s <> t) by (intros ->; destruct Ins as [_ N]; apply N; right; apply q_is_qof).
      assert (CL : colinear s t) by (unfold colinear, C1, C2, cross3; rewrite <- V1, <- Wx, Wx, Ef, V2; repeat split; ring).
      destruct (no_overlap _ _ Safe s t Hv Hf NE CL (qof (sb t)) (proj1 Ins) (on_seg_end_b t)) as [N _]. apply Ins. auto.
  Qed.

  (** the grid reports the same marks as comparing all pairs *)
  Theorem frag_pass_complete :
    (forall m, In m (fst (frag_pass g r xs)) <-> pass_mark xs r m) /\ (snd (frag_pass g r xs) = true <-> pass_round xs r).
  Proof.
    destruct (frag_pass_ok g r xs W) as [S1 S2]. unfold frag_pass in *. fold (fragments g xs) in *. cbn [fst snd] in *. split.
    - intro m. split.
      + intro H. destruct m as [k p]. apply in_app_iff in H as [H|H].
        * apply in_flat_map in H as (res & Hres & H). apply in_map_iff in Hres as (i & <- & _). apply (bin_split_ok xs W r g i). auto.
        * exfalso. apply in_flat_map in H as (i & _ & H). exact (no_border_mark i k p H).
      + intros (i & j & s & t & L & Hi & Hj & I). destruct (pair_found i j s t L Hi Hj) as [[E _]|(col & Ic & A & _)]; [rewrite E in I; destruct I|].
        apply in_app_iff. left. apply in_flat_map. exists (bin_split r (column (fragments g xs) col)). split; auto. apply in_map_iff. eauto.
    - split; auto. intros (i & j & s & t & L & Hi & Hj & I). destruct (pair_found i j s t L Hi Hj) as [[_ E]|(col & Ic & _ & A)]; [congruence|].
      apply existsb_exists. exists (bin_split r (column (fragments g xs) col)). split; auto. apply in_map_iff. eauto.
  Qed.
End Pass.
