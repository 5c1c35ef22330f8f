(** * The fragments of a segment cover it. *)
From Coq Require Import Lqa.
From Verif Require Import Base Spec QLib PlanarGeo ModelFill ModelCross CrossPoint ModelSplit ModelFrag.
Open Scope Z_scope.

Definition rect_has (r : rect) (q : qpt) : Prop :=
  (inject_Z (r_min_x r) <= fst q <= inject_Z (r_max_x r))%Q /\ (inject_Z (r_min_y r) <= snd q <= inject_Z (r_max_y r))%Q.
(** the vertical strip of column [i] *)
Definition in_column (g : grid) (i : Z) (q : qpt) : Prop :=
  (inject_Z (grid_pos g i) <= fst q <= inject_Z (grid_pos g (i + 1)))%Q.

Lemma grid_pos_next g i : 0 <= g_power g -> grid_pos g (i + 1) = grid_pos g i + Z.shiftl 1 (g_power g).
Proof. intro H. unfold grid_pos. rewrite !Z.shiftl_mul_pow2 by auto. ring. Qed.

Lemma grid_index_spec g x : 0 <= g_power g -> grid_pos g (grid_index g x) <= x < grid_pos g (grid_index g x + 1).
Proof.
  intro H. rewrite grid_pos_next by auto. unfold grid_pos, grid_index. rewrite Z.shiftr_div_pow2, !Z.shiftl_mul_pow2 by auto.
  pose proof (Z.pow_pos_nonneg 2 (g_power g) ltac:(lia) H) as P.
  pose proof (Z.div_mod (x - g_min g) (2 ^ g_power g) ltac:(lia)) as D.
  pose proof (Z.mod_pos_bound (x - g_min g) (2 ^ g_power g) P) as M. nia.
Qed.

Lemma shift_pos g : 0 <= g_power g -> 0 < Z.shiftl 1 (g_power g).
Proof. intro H. rewrite Z.shiftl_mul_pow2 by auto. pose proof (Z.pow_pos_nonneg 2 (g_power g)). lia. Qed.

Lemma h_min_le w k p width height : 0 <= p -> 0 < width -> 0 <= w -> k * width <= Z.shiftl height p ->
  Z.shiftr (w * k) p * width <= height * w.
Proof.
  intros Hp Hw Hw0 Hk. rewrite Z.shiftr_div_pow2 by auto. rewrite Z.shiftl_mul_pow2 in Hk by auto.
  pose proof (Z.pow_pos_nonneg 2 p ltac:(lia) Hp) as P.
  pose proof (Z.mul_div_le (w * k) (2 ^ p) P) as D.
  assert (E : 2 ^ p * (w * k / 2 ^ p * width) <= 2 ^ p * (height * w)) by nia. nia.
Qed.

Lemma h_max_ge h height w width : 0 < width -> height * w <= Z.max h (- (- (height * w) / width)) * width.
Proof.
  intro H. pose proof (Z.mul_div_le (- (height * w)) width H) as D. 
  assert (- (- (height * w) / width) <= Z.max h (- (- (height * w) / width))) by lia. nia.
Qed.

Lemma qz_le' a b : a <= b -> (inject_Z a <= inject_Z b)%Q.
Proof. intro H. rewrite <- Zle_Qle. auto. Qed.

Section Cols.
  Variables (g : grid) (index : nat) (s : xseg).
  Hypothesis Hg : 0 <= g_power g.
  Let x0 := px (sa s). Let y0 := py (sa s). Let width := px (sb s) - px (sa s).
  Let height := Z.abs (py (sb s) - py (sa s)).
  Variables (p k : Z).
  Hypothesis Hp : 0 <= p.
  Hypothesis Hk : k * width <= Z.shiftl height p.
  Hypothesis Wd : 0 < width.
  Let dw := Z.shiftl 1 (g_power g).
  Let inc := py (sa s) <=? py (sb s).
  Notation cols := (frag_cols index s width height p k dw inc).

  Variable q : qpt.
  Hypothesis On : on_seg s q.

  Let X := fst q. Let Y := snd q.
  Let sg := if inc then 1 else -1.

  Lemma on_line : (inject_Z sg * (Y - inject_Z y0) * inject_Z width == inject_Z height * (X - inject_Z x0))%Q.
  Proof.
    destruct On as (t & T & EX & EY). unfold X, Y, x0, y0, width, height, sg, inc. rewrite EX, EY. unfold qx, qy.
    destruct (py (sa s) <=? py (sb s)) eqn:E.
    - rewrite Z.abs_eq by lia. rewrite !qz_sub. change (inject_Z 1) with 1%Q. ring.
    - rewrite Z.abs_neq by lia. replace (- (py (sb s) - py (sa s))) with (py (sa s) - py (sb s)) by lia. rewrite !qz_sub. change (inject_Z (-1)) with (-1)%Q. ring.
  Qed.
  Lemma on_range : (inject_Z x0 <= X <= inject_Z (px (sb s)))%Q.
  Proof.
    destruct On as (t & T & EX & EY). unfold X, x0. rewrite EX. unfold qx.
    assert (H : (0 <= inject_Z (px (sb s)) - inject_Z (px (sa s)))%Q).
    { rewrite <- qz_sub. change 0%Q with (inject_Z 0). apply qz_le'. unfold width in Wd. lia. }
    nra.
  Qed.

  Local Open Scope Q_scope.
  (** the signed height above the start *)
  Let V := (inject_Z sg * (Y - inject_Z y0))%Q.
  Lemma V_line : V * inject_Z width == inject_Z height * (X - inject_Z x0).
  Proof. exact on_line. Qed.

  Lemma V_ge h w : (h * width <= height * w)%Z -> inject_Z (x0 + w) <= X -> inject_Z h <= V.
  Proof.
    intros H L. pose proof V_line as E.
    assert (Wq : 0 < inject_Z width) by (change 0 with (inject_Z 0); rewrite <- Zlt_Qlt; auto).
    assert (Hh : 0 <= inject_Z height) by (change 0 with (inject_Z 0); apply qz_le'; unfold height; lia).
    apply qz_le' in H. rewrite !inject_Z_mult in H. rewrite inject_Z_plus in L.
    assert (inject_Z h * inject_Z width <= V * inject_Z width) by (rewrite E; nra).
    apply Qmult_le_r in H0; auto.
  Qed.
  Lemma V_le h w : (height * w <= h * width)%Z -> X <= inject_Z (x0 + w) -> V <= inject_Z h.
  Proof.
    intros H L. pose proof V_line as E.
    assert (Wq : 0 < inject_Z width) by (change 0 with (inject_Z 0); rewrite <- Zlt_Qlt; auto).
    assert (Hh : 0 <= inject_Z height) by (change 0 with (inject_Z 0); apply qz_le'; unfold height; lia).
    apply qz_le' in H. rewrite !inject_Z_mult in H. rewrite inject_Z_plus in L.
    assert (V * inject_Z width <= inject_Z h * inject_Z width) by (rewrite E; nra).
    apply Qmult_le_r in H0; auto.
  Qed.
  Lemma V_end : V <= inject_Z height.
  Proof. apply (V_le height width); [lia|]. replace (x0 + width)%Z with (px (sb s)) by (unfold x0, width; lia). apply on_range. Qed.
  Local Close Scope Q_scope.

  (** from a bound on the signed height to the y-range *)
  Lemma Y_range lo hi : (inject_Z lo <= V <= inject_Z hi)%Q ->
    (if inc then (inject_Z (y0 + lo) <= Y <= inject_Z (y0 + hi))%Q else (inject_Z (y0 - hi) <= Y <= inject_Z (y0 - lo))%Q).
  Proof.
    unfold V, sg. destruct inc.
    - change (inject_Z 1) with 1%Q. rewrite !inject_Z_plus. lra.
    - change (inject_Z (-1)) with (-1)%Q. rewrite !qz_sub. lra.
  Qed.

  (** [wp]: width already covered, [hp]: floor of the height there *)
  Lemma cols_cover n : forall i wp hp,
    grid_pos g i <= x0 + wp -> x0 + wp <= grid_pos g (i + 1) -> 0 <= wp ->
    hp * width <= height * wp ->
    px (sb s) <= grid_pos g (i + Z.of_nat n + 1) ->
    grid_pos g (i + Z.of_nat n) <= px (sb s) ->
    (inject_Z (x0 + wp) <= X)%Q ->
    exists j f, In (j, f) (cols n i (grid_pos g (i + 1) - x0) (x0 + wp) (if inc then y0 + hp else y0 - hp)) /\
      rect_has (f_rect f) q /\ in_column g j q.
  Proof.
    pose proof on_range as [_ RX].
    induction n as [|n IH]; intros i wp hp A B W0 Hh C D L.
    - simpl. eexists _, _. split; [left; reflexivity|].
      assert (Ye : y0 + height = py (sb s) \/ y0 - height = py (sb s)) by (unfold height, y0; lia).
      pose proof (V_ge hp wp Hh L) as V1. pose proof V_end as V2.
      pose proof (Y_range hp height (conj V1 V2)) as YR.
      unfold rect_has, in_column. replace (i + Z.of_nat 0 + 1) with (i + 1) in C by lia. apply qz_le' in A, C.
      assert (Eh : if inc then y0 + height = py (sb s) else y0 - height = py (sb s)).
      { unfold inc, y0, height. destruct (py (sa s) <=? py (sb s)) eqn:E; lia. }
      fold X Y. destruct inc; simpl; rewrite <- Eh; repeat split; try tauto; lra.
    - cbn [frag_cols].
      set (w := grid_pos g (i + 1) - x0). set (hm := Z.shiftr (w * k) p). set (hM := Z.max hm (- (- (height * w) / width))).
      assert (W1 : 0 <= w) by (unfold w; lia).
      assert (Hm : hm * width <= height * w) by (apply h_min_le; auto).
      assert (HM : height * w <= hM * width) by (apply h_max_ge; auto).
      assert (Ew : x0 + w = grid_pos g (i + 1)) by (unfold w; lia).
      destruct (Qlt_le_dec (inject_Z (x0 + w)) X) as [GT|LE].
      + destruct (IH (i + 1) w hm) as (j & f & I & R & Cl).
        * lia.
        * rewrite (grid_pos_next g (i + 1)) by auto. pose proof (shift_pos g Hg). lia.
        * auto.
        * auto.
        * replace (i + 1 + Z.of_nat n + 1) with (i + Z.of_nat (S n) + 1) by lia. auto.
        * replace (i + 1 + Z.of_nat n) with (i + Z.of_nat (S n)) by lia. auto.
        * lra.
        * exists j, f. split; auto. fold x0 y0. 
          replace (grid_pos g (i + 1 + 1) - x0) with (w + dw) in I by (rewrite (grid_pos_next g (i + 1)) by auto; unfold w, dw; lia).
          destruct inc; right; exact I.
      + pose proof (V_ge hp wp Hh L) as V1. pose proof (V_le hM w HM LE) as V2.
        pose proof (Y_range hp hM (conj V1 V2)) as YR. apply qz_le' in A.
        fold x0 y0. exists i. destruct inc; (eexists; split; [left; reflexivity|]);
          unfold rect_has, in_column; simpl; fold X Y; rewrite <- Ew; repeat split; try tauto; lra.
  Qed.
End Cols.

Lemma horizontal_cover g index s q n : 0 <= g_power g -> py (sa s) = py (sb s) -> (inject_Z (py (sa s)) == snd q)%Q ->
  (fst q <= inject_Z (px (sb s)))%Q -> forall i x, grid_pos g i <= x ->
  px (sb s) <= grid_pos g (i + Z.of_nat n + 1) -> (inject_Z x <= fst q)%Q ->
  exists j f, In (j, f) (frag_horizontal index s g n i x) /\ rect_has (f_rect f) q /\ in_column g j q.
Proof.
  intros Hg Ey EY RX. induction n as [|n IH]; intros i x A C L; cbn [frag_horizontal].
  - eexists _, _. split; [left; reflexivity|]. unfold rect_has, in_column. simpl.
    replace (i + Z.of_nat 0 + 1) with (i + 1) in C by lia. apply qz_le' in A, C. rewrite EY. repeat split; lra.
  - destruct (Qlt_le_dec (inject_Z (grid_pos g (i + 1))) (fst q)) as [GT|LE].
    + destruct (IH (i + 1) (grid_pos g (i + 1))) as (j & f & I & R); try lia.
      * replace (i + 1 + Z.of_nat n + 1) with (i + Z.of_nat (S n) + 1) by lia. auto.
      * lra.
      * exists j, f. split; auto. right. auto.
    + eexists _, _. split; [left; reflexivity|]. unfold rect_has, in_column. simpl. apply qz_le' in A. rewrite EY. repeat split; lra.
Qed.

(** C36 *)
Theorem fragments_cover g index s q : 0 <= g_power g -> bounded s -> wf_xseg s -> on_seg s q ->
  exists j f, In (j, f) (add_segment g index s) /\ rect_has (f_rect f) q /\ in_column g j q.
Proof.
  intros Hg B W On. unfold add_segment.
  pose proof (on_seg_box s q On) as BOX.
  pose proof (grid_index_spec g (px (sa s)) Hg) as Ia. pose proof (grid_index_spec g (px (sb s) - 1) Hg) as Ib.
  assert (Wx : px (sa s) < px (sb s) \/ (px (sa s) = px (sb s) /\ py (sa s) < py (sb s))) by (unfold wf_xseg, pt_lt in W; lia).
  assert (Mono : px (sa s) < px (sb s) -> grid_index g (px (sa s)) <= grid_index g (px (sb s) - 1)).
  { intro H. unfold grid_index. rewrite !Z.shiftr_div_pow2 by auto. apply Z.div_le_mono; [apply Z.pow_pos_nonneg; lia|lia]. }
  assert (XR : px (sa s) <= px (sb s) -> (inject_Z (px (sa s)) <= fst q <= inject_Z (px (sb s)))%Q).
  { intro H. destruct On as (t & T & EX & _). rewrite EX. unfold qx. apply qz_le' in H. nra. }
  destruct (py (sa s) =? py (sb s)) eqn:EY.
  - apply Z.eqb_eq in EY. assert (Hx : px (sa s) < px (sb s)) by lia. specialize (XR ltac:(lia)).
    apply horizontal_cover; auto; try tauto; try lia.
    + destruct On as (t & T & _ & EYq). rewrite EYq. unfold qy. rewrite EY. ring.
    + rewrite Z2Nat.id by (specialize (Mono Hx); lia).
      replace (grid_index g (px (sa s)) + (grid_index g (px (sb s) - 1) - grid_index g (px (sa s))) + 1) with (grid_index g (px (sb s) - 1) + 1) by lia. lia.
  - apply Z.eqb_neq in EY.
    assert (Whole : px (sb s) <= grid_pos g (grid_index g (px (sa s)) + 1) ->
      exists j f, In (j, f) [(grid_index g (px (sa s)), with_index_and_segment index s)] /\ rect_has (f_rect f) q /\ in_column g j q).
    { intro H. eexists _, _. split; [left; reflexivity|]. specialize (XR ltac:(lia)).
      destruct On as (t & T & EX & EYq). unfold qy in EYq.
      unfold rect_has, in_column. simpl. apply qz_le' in H. destruct Ia as [Ia _]. apply qz_le' in Ia.
      unfold y_min, y_max. repeat split; try tauto; try lra; destruct (py (sa s) <? py (sb s)) eqn:E; rewrite EYq;
        assert (E' : py (sa s) <= py (sb s) \/ py (sb s) <= py (sa s)) by lia;
        [assert (K : py (sa s) <= py (sb s)) by lia|assert (K : py (sb s) <= py (sa s)) by lia|assert (K : py (sa s) <= py (sb s)) by lia|assert (K : py (sb s) <= py (sa s)) by lia]; apply qz_le' in K; nra. }
    destruct (px (sa s) =? px (sb s)) eqn:EX.
    + apply Z.eqb_eq in EX. apply Whole. lia.
    + apply Z.eqb_neq in EX. assert (Hx : px (sa s) < px (sb s)) by lia.
      destruct (_ <=? _) eqn:EI.
      * apply Whole. specialize (Mono Hx).
        replace (grid_index g (px (sb s) - 1)) with (grid_index g (px (sa s))) in Ib by lia. lia.
      * set (i0 := grid_index g (px (sa s))) in *. set (i1 := grid_index g (px (sb s) - 1)) in *.
        set (width := px (sb s) - px (sa s)). set (height := Z.abs (py (sb s) - py (sa s))).
        assert (Wd : 0 < width) by (unfold width; lia).
        assert (Wh : 0 < height) by (unfold height; lia).
        assert (Pp : 0 <= 63 - Z.log2 (width * height)).
        { assert (width * height < 2 ^ 64).
          { destruct B as [[B1 B2] [B3 B4]]. unfold width, height. change (2 ^ 30) with 1073741824 in *. change (2 ^ 64) with 18446744073709551616. nia. }
          assert (Z.log2 (width * height) < 64) by (apply Z.log2_lt_pow2; nia). lia. }
        pose proof (cols_cover g index s Hg (63 - Z.log2 (width * height)) (Z.shiftl height (63 - Z.log2 (width * height)) / width)
           Pp) as CC. fold width height in CC.
        specialize (CC ltac:(pose proof (Z.mul_div_le (Z.shiftl height (63 - Z.log2 (width * height))) width Wd); lia) Wd q On
           (Z.to_nat (i1 - i0)) i0 0 0).
        rewrite !Z.add_0_r, !Z.sub_0_r in CC. rewrite Z2Nat.id in CC by lia.
        replace (i0 + (i1 - i0)) with i1 in CC by lia.
        destruct CC as (j & f & I & R); try lia.
        -- apply XR. lia.
        -- exists j, f. split; auto. destruct (py (sa s) <=? py (sb s)); exact I.
Qed.
