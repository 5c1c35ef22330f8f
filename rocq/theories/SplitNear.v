(** * Rounding: what splitting does to the winding numbers of points away from the edges. *)
From Verif Require Import Base Spec QLib ModelSegm SegmProofs MergeProofs PlanarGeo ModelCross CrossProofs CrossPoint MarksProofs
  CoreResults ModelSplit SplitProofs SplitPass BinsProofs SplitApply SplitLoop.
From Coq Require Import Lqa Qabs.
Open Scope Z_scope.

(** ** Specification *)
(** [q] is at distance at most [d] (in x and in y) from a point of the segment [a b] *)
Definition within (d : Q) (a b : pt) (q : qpt) : Prop :=
  exists t, (0 <= t <= 1)%Q /\
    (Qabs (fst q - (qx a + t * (qx b - qx a))) <= d)%Q /\ (Qabs (snd q - (qy a + t * (qy b - qy a))) <= d)%Q.

Lemma Qabs_le_iff x d : (Qabs x <= d <-> - d <= x <= d)%Q.
Proof. split; [apply Qabs_Qle_condition|]. intros [A B]. apply Qabs_Qle_condition. auto. Qed.

Lemma within_comp d a b q q' : (fst q == fst q')%Q -> (snd q == snd q')%Q -> within d a b q -> within d a b q'.
Proof. intros X Y (t & T & A & B). exists t. rewrite <- X, <- Y. auto. Qed.
Lemma within_mono d d' a b q : (d <= d')%Q -> within d a b q -> within d' a b q.
Proof. intros L (t & T & A & B). exists t. split; auto. split; eapply Qle_trans; eauto. Qed.
Lemma within_a d a b : (0 <= d)%Q -> within d a b (qof a).
Proof. intro H. exists 0%Q. split; [lra|]. cbn [fst snd qof]. fold (qx a) (qy a). split; apply Qabs_le_iff; split; ring_simplify; lra. Qed.
Lemma within_b d a b : (0 <= d)%Q -> within d a b (qof b).
Proof. intro H. exists 1%Q. split; [lra|]. cbn [fst snd qof]. fold (qx b) (qy b). split; apply Qabs_le_iff; split; ring_simplify; lra. Qed.
Lemma within_on s q : on_seg s q -> within 0 (sa s) (sb s) q.
Proof. intros (t & T & X & Y). exists t. split; auto. rewrite X, Y. split; apply Qabs_le_iff; split; ring_simplify; lra. Qed.

Lemma mul_range u x d : (0 <= u)%Q -> (- d <= x <= d)%Q -> (- (u * d) <= u * x <= u * d)%Q.
Proof.
  intros U [A B]. pose proof (Qmult_le_0_compat u (d - x) U ltac:(lra)). pose proof (Qmult_le_0_compat u (d + x) U ltac:(lra)). split; lra.
Qed.
(** the neighbourhood of a segment is convex *)
Lemma within_convex d a b q q' r u : (0 <= u <= 1)%Q -> within d a b q -> within d a b q' ->
  (fst r == fst q + u * (fst q' - fst q))%Q -> (snd r == snd q + u * (snd q' - snd q))%Q -> within d a b r.
Proof.
  intros U (t & T & A & B) (t' & T' & A' & B') X Y. apply Qabs_le_iff in A, B, A', B'.
  pose proof (mul_range (1 - u) _ _ ltac:(lra) A). pose proof (mul_range (1 - u) _ _ ltac:(lra) B).
  pose proof (mul_range u _ _ ltac:(lra) A'). pose proof (mul_range u _ _ ltac:(lra) B').
  exists (t + u * (t' - t))%Q. split; [|split].
  - pose proof (Qmult_le_0_compat u t'). pose proof (Qmult_le_0_compat (1 - u) t). pose proof (Qmult_le_0_compat u (1 - t')). pose proof (Qmult_le_0_compat (1 - u) (1 - t)). split; lra.
  - apply Qabs_le_iff. rewrite X. split; lra.
  - apply Qabs_le_iff. rewrite Y. split; lra.
Qed.
Lemma within_trans d e a b x y q : within d a b (qof x) -> within d a b (qof y) -> within e x y q -> within (d + e) a b q.
Proof.
  intros Wx Wy (t & T & X & Y). apply Qabs_le_iff in X, Y.
  destruct (within_convex d a b (qof x) (qof y) (qx x + t * (qx y - qx x), qy x + t * (qy y - qy x))%Q t T Wx Wy) as (v & V & A & B); cbn [fst snd qof]; [reflexivity|reflexivity|].
  cbn [fst snd] in A, B. apply Qabs_le_iff in A, B. exists v. split; auto. split; apply Qabs_le_iff; split; lra.
Qed.

(** ** A triangle inside a convex set does not wind around points outside of it *)
Definition lef (q : qpt) (p : pt) : bool := Qle_bool (qx p) (fst q).
(** the point of the line [x y] above or below [q] *)
Definition hgt (q : qpt) (x y : pt) : Q := height (XS x y) (fst q).
Lemma lef_cases q p : (lef q p = true /\ (qx p <= fst q)%Q) \/ (lef q p = false /\ (fst q < qx p)%Q).
Proof. unfold lef. destruct (Qle_bool (qx p) (fst q)) eqn:E; [left|right]; split; auto; [apply Qle_bool_iff; auto|]. apply Qnot_le_lt. intro H. apply Qle_bool_iff in H. congruence. Qed.
Lemma spans_lef q x y : spans (XS x y) (fst q) = lef q x && negb (lef q y).
Proof. unfold spans, Qltb, lef. reflexivity. Qed.
Lemma hgt_sym q x y : lef q x <> lef q y -> (hgt q x y == hgt q y x)%Q.
Proof.
  intro N. unfold hgt, height. cbn [sa sb].
  assert (~ (qx y - qx x == 0)%Q). { intro E. destruct (lef_cases q x) as [[A A']|[A A']], (lef_cases q y) as [[B B']|[B B']]; try congruence; lra. }
  field. split; lra.
Qed.
Lemma edge_wind_lef q x y : edge_wind q (x, y) = (bz (lef q x) - bz (lef q y)) * bz (Qltb (hgt q x y) (snd q)).
Proof.
  unfold edge_wind, under. cbn [fst snd]. rewrite !spans_lef. fold (hgt q x y) (hgt q y x).
  destruct (lef q x) eqn:A, (lef q y) eqn:B; cbn [andb negb bz]; try lia.
  - destruct (Qltb (hgt q x y) (snd q)); reflexivity.
  - assert (E : Qltb (hgt q y x) (snd q) = Qltb (hgt q x y) (snd q)).
    { assert (S : (hgt q x y == hgt q y x)%Q) by (apply hgt_sym; congruence). unfold Qltb. f_equal. rewrite S. reflexivity. }
    rewrite E. destruct (Qltb (hgt q x y) (snd q)); reflexivity.
Qed.
Lemma hgt_within d a b q x y : lef q x <> lef q y -> within d a b (qof x) -> within d a b (qof y) -> within d a b (fst q, hgt q x y).
Proof.
  intros N Wx Wy.
  assert (L : exists u, (0 <= u <= 1 /\ fst q == qx x + u * (qx y - qx x))%Q).
  { exists ((fst q - qx x) / (qx y - qx x))%Q.
    destruct (lef_cases q x) as [[A A']|[A A']], (lef_cases q y) as [[B B']|[B B']]; try congruence.
    - split; [split|field; lra]. { apply Qle_shift_div_l; lra. } { apply Qle_shift_div_r; lra. }
    - assert (E : ((fst q - qx x) / (qx y - qx x) == (qx x - fst q) / (qx x - qx y))%Q) by (field; split; lra). rewrite E.
      split; [split|field; lra]. { apply Qle_shift_div_l; lra. } { apply Qle_shift_div_r; lra. } }
  destruct L as (u & U & X). apply (within_convex d a b (qof x) (qof y) _ u U Wx Wy); cbn [fst snd qof]; [exact X|].
  unfold hgt, height. cbn [sa sb]. rewrite X. unfold qy. field.
  destruct (lef_cases q x) as [[A A']|[A A']], (lef_cases q y) as [[B B']|[B B']]; try congruence; lra.
Qed.
Lemma convex_above d a b q h h' : ~ within d a b q -> within d a b (fst q, h) -> within d a b (fst q, h') -> Qltb h (snd q) = Qltb h' (snd q).
Proof.
  assert (K : forall h h', within d a b (fst q, h) -> within d a b (fst q, h') -> (h < snd q)%Q -> (snd q <= h')%Q -> within d a b q).
  { clear h h'. intros h h' W W' L L'. apply (within_convex d a b (fst q, h) (fst q, h') q ((snd q - h) / (h' - h))); auto; cbn [fst snd].
    - split; [apply Qle_shift_div_l; lra|apply Qle_shift_div_r; lra].
    - ring.
    - field. lra. }
  intros N W W'. unfold Qltb.
  destruct (Qle_bool (snd q) h) eqn:E, (Qle_bool (snd q) h') eqn:E'; auto; exfalso; apply N.
  - apply Qle_bool_iff in E. apply (K h' h); auto. apply Qnot_le_lt. intro H. apply Qle_bool_iff in H. congruence.
  - apply Qle_bool_iff in E'. apply (K h h'); auto. apply Qnot_le_lt. intro H. apply Qle_bool_iff in H. congruence.
Qed.
Lemma triangle_zero d a b q x y z : ~ within d a b q -> within d a b (qof x) -> within d a b (qof y) -> within d a b (qof z) ->
  edge_wind q (x, y) + edge_wind q (y, z) = edge_wind q (x, z).
Proof.
  intros N Wx Wy Wz. rewrite !edge_wind_lef.
  assert (K : forall p r p' r', within d a b (qof p) -> within d a b (qof r) -> within d a b (qof p') -> within d a b (qof r') ->
    lef q p <> lef q r -> lef q p' <> lef q r' -> Qltb (hgt q p r) (snd q) = Qltb (hgt q p' r') (snd q)).
  { intros p r p' r' W1 W2 W3 W4 N1 N2. apply (convex_above d a b); auto; apply hgt_within; auto. }
  destruct (lef q x) eqn:A, (lef q y) eqn:B, (lef q z) eqn:D; cbn [bz]; try lia;
    first [ rewrite (K x z y z) by (congruence || auto); lia | rewrite (K y z x y) by (congruence || auto); lia | rewrite (K x z x y) by (congruence || auto); lia ].
Qed.

(** ** Marks lie near the edge they are put on *)
(** the greatest distance, in x and in y, between a mark and its edge, for the snap radius [r] (a squared distance) *)
Definition reach (r : Z) : Z := 1 + Z.sqrt r.
Lemma sqr_dist_reach p q r : 0 <= r -> sqr_dist p q <= r -> Z.abs (px p - px q) <= Z.sqrt r /\ Z.abs (py p - py q) <= Z.sqrt r.
Proof.
  intros Hr H. unfold sqr_dist in H.
  assert (K : forall z, z * z <= r -> Z.abs z <= Z.sqrt r).
  { intros z Hz. rewrite <- (Z.sqrt_square (Z.abs z)) by lia. apply Z.sqrt_le_mono. nia. }
  pose proof (Z.square_nonneg (px p - px q)). pose proof (Z.square_nonneg (py p - py q)). split; apply K; lia.
Qed.
Lemma within_near d s m p : on_seg s m -> (Qabs (qx p - fst m) <= d)%Q -> (Qabs (qy p - snd m) <= d)%Q -> within d (sa s) (sb s) (qof p).
Proof. intros (t & T & X & Y) A B. exists t. split; auto. cbn [fst snd qof]. fold (qx p) (qy p). rewrite <- X, <- Y. auto. Qed.

Lemma reach_pos r : (0 <= inject_Z (reach r))%Q.
Proof. change 0%Q with (inject_Z 0). rewrite <- Zle_Qle. unfold reach. pose proof (Z.sqrt_nonneg r). lia. Qed.

Section Pair.
  Variables (i j : nat) (s t : xseg) (r : Z).
  Hypothesis IJ : i <> j.
  Hypothesis Ws : wf_xseg s.
  Hypothesis Wt : wf_xseg t.
  Hypothesis Bs : bounded s.
  Hypothesis Bt : bounded t.
  Hypothesis NE : s <> t.
  Hypothesis Hr : 1 <= r.
  Notation D := (inject_Z (reach r)).

  (** a point near the computed crossing point is near both segments *)
  Lemma near_crossing p : properly s t -> sqr_dist p (cross_point s t) <= r -> within D (sa s) (sb s) (qof p) /\ within D (sa t) (sb t) (qof p).
  Proof.
    intros P H. destruct (cross_point_near s t Bs Bt P) as (X & Y & _). destruct (properly_meet s t P) as [[Os _] [Ot _]].
    apply sqr_dist_reach in H as [HX HY]; [|lia].
    assert (K : forall a b c, (Qabs (inject_Z a - c) < 1)%Q -> Z.abs (b - a) <= Z.sqrt r -> (Qabs (inject_Z b - c) <= D)%Q).
    { intros a b c A B. apply Qabs_lt in A. assert (B' : (- inject_Z (Z.sqrt r) <= inject_Z b - inject_Z a <= inject_Z (Z.sqrt r))%Q).
      { rewrite <- qz_sub, <- inject_Z_opp, <- !Zle_Qle. lia. }
      apply Qabs_le_iff. unfold reach. rewrite inject_Z_plus. change (inject_Z 1) with 1%Q. lra. }
    split; eapply within_near; eauto; eapply K; eauto.
  Qed.
  Lemma crossing_self : properly s t -> within D (sa s) (sb s) (qof (cross_point s t)) /\ within D (sa t) (sb t) (qof (cross_point s t)).
  Proof. intro P. apply near_crossing; auto. rewrite sqr_dist_refl. lia. Qed.

  Lemma sqr_dist_sym p q : sqr_dist p q = sqr_dist q p.
  Proof. unfold sqr_dist. ring. Qed.

  Lemma marks_near k p : In (k, p) (fst (cross_marks i j s t r)) -> (k = i /\ within D (sa s) (sb s) (qof p)) \/ (k = j /\ within D (sa t) (sb t) (qof p)).
  Proof.
    intro I. destruct (snd (cross_marks i j s t r)) eqn:R.
    2:{ destruct (marks_sound i j s t r Ws Wt Hr k p R I) as [(E & A & _)|(E & A & _)]; [left|right]; split; auto;
        apply (within_mono 0); try apply reach_pos; apply within_on, A. }
    pose proof (marks_round i j s t r Ws Wt R) as P.
    unfold cross_marks in I, R. destruct (cross_cases s t r Ws Wt) as [CL|NC TO|p' Hp Dx II|p' Hp Dx II|P']; cbn in R; try discriminate.
    clear P'. destruct (crossing_self P) as [C1' C2'].
    assert (NP : forall e, sqr_dist e (cross_point s t) <= r -> In (k, p) [(i, e)] \/ In (k, p) [(j, e)] ->
       (k = i /\ within D (sa s) (sb s) (qof p)) \/ (k = j /\ within D (sa t) (sb t) (qof p))).
    { intros e He J. destruct (near_crossing e P He). destruct J as [[J|[]]|[J|[]]]; injection J as <- <-; auto. }
    assert (PP : In (k, p) [(i, cross_point s t); (j, cross_point s t)] -> (k = i /\ within D (sa s) (sb s) (qof p)) \/ (k = j /\ within D (sa t) (sb t) (qof p))).
    { intros [J|[J|[]]]; injection J as <- <-; auto. }
    unfold middle_cross in I.
    destruct (_ && _); [exact (PP I)|].
    destruct ((sqr_dist (sa s) (cross_point s t) <=? r) || _ || _ || _) eqn:E; [|exact (PP I)].
    set (ra0 := sqr_dist (sa s) (cross_point s t)) in *. set (rb0 := sqr_dist (sb s) (cross_point s t)) in *.
    set (ra1 := sqr_dist (sa t) (cross_point s t)) in *. set (rb1 := sqr_dist (sb t) (cross_point s t)) in *.
    assert (M : Z.min (Z.min ra0 rb0) (Z.min ra1 rb1) <= r) by lia.
    destruct (Z.leb_spec (Z.min ra0 rb0) (Z.min ra1 rb1)) as [L|L].
    - destruct (is_not_line_point _ _ _); [|exact (PP I)]. cbn in I.
      apply (NP (if ra0 <? rb0 then sa s else sb s)); auto. destruct (Z.ltb_spec ra0 rb0); fold ra0 rb0; lia.
    - destruct (is_not_line_point _ _ _); [|exact (PP I)]. cbn in I.
      apply (NP (if ra1 <? rb1 then sa t else sb t)); auto. destruct (Z.ltb_spec ra1 rb1); fold ra1 rb1; lia.
  Qed.
End Pair.

Lemma pass_near xs r i s p : wf_sorted xs -> Forall bounded xs -> 1 <= r -> nth_error xs i = Some s -> pass_mark xs r (i, p) ->
  within (inject_Z (reach r)) (sa s) (sb s) (qof p).
Proof.
  intros W B Hr Hi (a & b & s1 & t1 & L & Hs & Ht & I).
  pose proof (wf_sorted_wf _ _ _ W Hs) as Ws. pose proof (wf_sorted_wf _ _ _ W Ht) as Wt.
  rewrite Forall_forall in B. pose proof (B _ (nth_error_In _ _ Hs)). pose proof (B _ (nth_error_In _ _ Ht)).
  destruct (marks_near a b s1 t1 r) with (k := i) (p := p) as [[E K]|[E K]]; auto; [lia|subst i; rewrite Hs in Hi; injection Hi as <-; auto|subst i; rewrite Ht in Hi; injection Hi as <-; auto].
Qed.

(** ** One round, all rounds *)
(** [q] is farther than [d] from every edge *)
Definition away {C} (d : Q) (segs : list (segment C)) (q : qpt) : Prop := forall s, In s segs -> ~ within d (sa (sx s)) (sb (sx s)) q.

Section Round.
  Context {C : Type} {WC : WindingCount C} {WL : WCLaws C}.
  Variable segs : list (segment C).
  Hypothesis I : inv segs.
  Variable ms : list mark.
  Variable d : Q.
  Hypothesis D0 : (0 <= d)%Q.
  Hypothesis Near : forall i s p, nth_error segs i = Some s -> In (i, p) ms -> within d (sa (sx s)) (sb (sx s)) (qof p).
  Hypothesis Range : forall i p, In (i, p) ms -> exists s, nth_error segs i = Some s /\ p <> sa (sx s) /\ p <> sb (sx s).
  Variable q : qpt.
  Variable f : C -> Z.
  Hypothesis F1 : forall x y, f (wc_add x y) = f x + f y.
  Hypothesis F2 : forall c, wc_not_empty c = false -> f c = 0.
  Hypothesis F3 : forall c, f (wc_invert c) = - f c.

  Lemma round_wind : away d segs q -> wind (chain_of f (sort_merge (split_pieces segs ms))) q = wind (chain_of f segs) q.
  Proof.
    intro A. rewrite sort_merge_wind; auto. rewrite !wind_segval.
    - apply (pieces_sum segs ms f F3 (fun a b => edge_wind q (a, b))) with
        (P := fun i p => forall s, nth_error segs i = Some s -> within d (sa (sx s)) (sb (sx s)) (qof p)).
      + intros; apply edge_wind_anti.
      + intros i s Hs. split; intros s' Hs'; rewrite Hs in Hs'; injection Hs' as <-; [apply within_a|apply within_b]; auto.
      + intros i p J s Hs. eapply Near; eauto.
      + intros i s x y z Hs Hx Hy Hz. apply (triangle_zero d (sa (sx s)) (sb (sx s))); auto. apply A. eapply nth_error_In; eauto.
    - apply I.
    - apply pieces_wf; [apply I|]. intros i p s J Hs. destruct (Range i p J) as (s' & Hs' & N). rewrite Hs in Hs'. injection Hs' as <-. auto.
  Qed.
  Lemma round_away e : (0 <= e)%Q -> away (d + e) segs q -> away e (sort_merge (split_pieces segs ms)) q.
  Proof.
    intros E A. assert (F : Forall (fun s : segment C => ~ within e (sa (sx s)) (sb (sx s)) q) (sort_merge (split_pieces segs ms))).
    { apply (sort_merge_elems (fun x => ~ within e (sa x) (sb x) q)). apply Forall_forall. intros x Hx H.
      apply in_pieces_ends in Hx as (i & s & Hs & HA & HB).
      apply (A s (nth_error_In _ _ Hs)). apply (within_trans d e _ _ (sa (sx x)) (sb (sx x))); auto.
      - destruct HA as [-> |[-> |HA]]; [apply within_a|apply within_b|eapply Near]; eauto.
      - destruct HB as [-> |[-> |HB]]; [apply within_a|apply within_b|eapply Near]; eauto. }
    rewrite Forall_forall in F. exact F.
  Qed.
End Round.

(** how far the edges may have moved after [n] rounds that start with the snap radius [r] *)
Fixpoint drift (n : nat) (r : SnapRadius) : Z :=
  match n with O => 0 | S m => reach (sr_radius r) + drift m (sr_increment r) end.
Lemma drift_pos n : forall r, 0 <= drift n r.
Proof. induction n as [|n IH]; intro r; cbn [drift]; [lia|]. specialize (IH (sr_increment r)). unfold reach. pose proof (Z.sqrt_nonneg (sr_radius r)). lia. Qed.

Section Loop.
  Variable layout_new : Z -> Z -> nat -> option (Z -> nat).
  Hypothesis Lay : layout_ok layout_new.
  Variable query : list (nat * xseg) -> Z * Z -> Z -> list (nat * xseg).
  Hypothesis Q : query_ok query.
  Variable tree_new : Z * Z -> bool.
  Notation loop := (split_loop layout_new query tree_new).

  Theorem loop_near {C} {WC : WindingCount C} {WL : WCLaws C} (f : C -> Z) solver q : (forall x y, f (wc_add x y) = f x + f y) ->
    (forall c, wc_not_empty c = false -> f c = 0) -> (forall c, f (wc_invert c) = - f c) ->
    forall fuel tree r (segs out : list (segment C)), inv segs ->
    loop (S fuel) solver tree r segs = Done out -> away (inject_Z (drift fuel r)) segs q -> wind (chain_of f out) q = wind (chain_of f segs) q.
  Proof.
    intros F1 F2 F3. induction fuel as [|fuel IH]; intros tree r segs out I H A.
    - cbn [split_loop] in H. pose proof (inv_wf_sorted _ I) as W. pose proof (sr_radius_pos r) as Hr.
      destruct (pass_spec query Q tree (sr_radius r) (map sx segs) W Hr) as [P1 P2].
      destruct (length segs <=? (if tree then 2 else 1))%nat; [injection H as <-; auto|].
      destruct ((if tree then tree_pass query else list_pass) (sr_radius r) (map sx segs)) as [ms rd]. cbn [fst snd] in P1, P2.
      destruct ms as [|m0 ms0] eqn:EM; [injection H as <-; auto|].
      rewrite <- EM in *. rewrite (step_apply layout_new Lay segs I (sr_radius r) Hr ms P1) in H by (rewrite EM; discriminate).
      destruct rd; cbn [negb] in H.
      + exfalso. destruct tree; [discriminate|]. destruct (is_list_split _ _); [discriminate|]. destruct (sort_merge _); discriminate.
      + injection H as <-. apply (step_wind segs I (sr_radius r) Hr ms P1); auto. intro R. apply P2 in R. discriminate.
    - remember (S fuel) as n eqn:En. cbn [split_loop] in H. pose proof (inv_wf_sorted _ I) as W. pose proof (sr_radius_pos r) as Hr.
      destruct (pass_spec query Q tree (sr_radius r) (map sx segs) W Hr) as [P1 P2].
      destruct (length segs <=? (if tree then 2 else 1))%nat; [injection H as <-; auto|].
      destruct ((if tree then tree_pass query else list_pass) (sr_radius r) (map sx segs)) as [ms rd]. cbn [fst snd] in P1, P2.
      destruct ms as [|m0 ms0] eqn:EM; [injection H as <-; auto|].
      rewrite <- EM in *. rewrite (step_apply layout_new Lay segs I (sr_radius r) Hr ms P1) in H by (rewrite EM; discriminate).
      pose proof (step_inv segs I (sr_radius r) Hr ms P1) as I'.
      destruct rd; cbn [negb] in H.
      + subst n. cbn [drift] in A. rewrite inject_Z_plus in A.
        assert (D0 : (0 <= inject_Z (reach (sr_radius r)))%Q) by apply reach_pos.
        assert (E0 : (0 <= inject_Z (drift fuel (sr_increment r)))%Q) by (change 0%Q with (inject_Z 0); rewrite <- Zle_Qle; apply drift_pos).
        assert (Near : forall i s p, nth_error segs i = Some s -> In (i, p) ms -> within (inject_Z (reach (sr_radius r))) (sa (sx s)) (sb (sx s)) (qof p)).
        { intros i s p Hs Im. apply (pass_near (map sx segs) (sr_radius r) i (sx s)); auto; [apply Forall_map, I|rewrite nth_error_map, Hs; auto|apply P1; auto]. }
        assert (Range : forall i p, In (i, p) ms -> exists s, nth_error segs i = Some s /\ p <> sa (sx s) /\ p <> sb (sx s)).
        { intros i p Im. apply P1 in Im. apply pass_not_end in Im as (x & Hx & N); auto. apply nth_map_sx in Hx as (s & Hs & <-). eauto. }
        pose proof (round_away segs ms _ D0 Near q _ E0 A) as A'.
        rewrite <- (round_wind segs I ms _ D0 Near Range q f F1 F2 F3).
        2:{ intros s Is K. apply (A s Is). eapply within_mono; [|exact K]. lra. }
        assert (K : forall t r', r' = sr_increment r -> loop (S fuel) solver t r' (sort_merge (split_pieces segs ms)) = Done out ->
           wind (chain_of f out) q = wind (chain_of f (sort_merge (split_pieces segs ms))) q).
        { intros t r' -> H'. eapply IH; eauto. }
        destruct tree; [eapply K; eauto|]. destruct (is_list_split solver _); [eapply K; eauto|].
        destruct (sort_merge (split_pieces segs ms)) as [|s0 rest] eqn:E1; [discriminate|]. eapply K; eauto.
      + injection H as <-. apply (step_wind segs I (sr_radius r) Hr ms P1); auto. intro R. apply P2 in R. discriminate.
  Qed.

  (** every edge after splitting is near one of the edges before *)
  Theorem loop_edges {C} {WC : WindingCount C} {WL : WCLaws C} solver : forall fuel tree r (segs out : list (segment C)), inv segs ->
    loop (S fuel) solver tree r segs = Done out -> forall s, In s out ->
    exists s0, In s0 segs /\ within (inject_Z (drift fuel r)) (sa (sx s0)) (sb (sx s0)) (qof (sa (sx s))) /\
      within (inject_Z (drift fuel r)) (sa (sx s0)) (sb (sx s0)) (qof (sb (sx s))).
  Proof.
    assert (D0' : forall n r, (0 <= inject_Z (drift n r))%Q) by (intros; change 0%Q with (inject_Z 0); rewrite <- Zle_Qle; apply drift_pos).
    induction fuel as [|fuel IH]; intros tree r segs out I H s Is;
      (assert (Self : In s segs -> forall d, (0 <= d)%Q -> exists s0, In s0 segs /\ within d (sa (sx s0)) (sb (sx s0)) (qof (sa (sx s))) /\ within d (sa (sx s0)) (sb (sx s0)) (qof (sb (sx s))));
       [intros Js d Hd; exists s; split; auto; split; [apply within_a|apply within_b]; auto|]);
      [|remember (S fuel) as n eqn:En]; cbn [split_loop] in H; pose proof (inv_wf_sorted _ I) as W; pose proof (sr_radius_pos r) as Hr;
      destruct (pass_spec query Q tree (sr_radius r) (map sx segs) W Hr) as [P1 P2];
      (destruct (length segs <=? (if tree then 2 else 1))%nat; [injection H as <-; auto|]);
      destruct ((if tree then tree_pass query else list_pass) (sr_radius r) (map sx segs)) as [ms rd]; cbn [fst snd] in P1, P2;
      (destruct ms as [|m0 ms0] eqn:EM; [injection H as <-; auto|]);
      rewrite <- EM in *; rewrite (step_apply layout_new Lay segs I (sr_radius r) Hr ms P1) in H by (rewrite EM; discriminate);
      pose proof (step_inv segs I (sr_radius r) Hr ms P1) as I';
      assert (Pc : forall d, (0 <= d)%Q -> (forall i s p, nth_error segs i = Some s -> In (i, p) ms -> within d (sa (sx s)) (sb (sx s)) (qof p)) ->
        forall e, In e (sort_merge (split_pieces segs ms)) -> exists s0, In s0 segs /\ within d (sa (sx s0)) (sb (sx s0)) (qof (sa (sx e))) /\ within d (sa (sx s0)) (sb (sx s0)) (qof (sb (sx e)))).
    1,3: (intros d Hd Near e Ie; assert (F : Forall (fun e : segment C => exists s0, In s0 segs /\ within d (sa (sx s0)) (sb (sx s0)) (qof (sa (sx e))) /\ within d (sa (sx s0)) (sb (sx s0)) (qof (sb (sx e)))) (sort_merge (split_pieces segs ms)));
      [apply (sort_merge_elems (fun x => exists s0, In s0 segs /\ within d (sa (sx s0)) (sb (sx s0)) (qof (sa x)) /\ within d (sa (sx s0)) (sb (sx s0)) (qof (sb x))));
       apply Forall_forall; intros x Hx; apply in_pieces_ends in Hx as (i & s1 & Hs & HA & HB); exists s1; split; [eapply nth_error_In; eauto|]; split;
       [destruct HA as [-> |[-> |HA]]; [apply within_a|apply within_b|eapply Near]; eauto|destruct HB as [-> |[-> |HB]]; [apply within_a|apply within_b|eapply Near]; eauto]
      |rewrite Forall_forall in F; apply F; auto]).
    - destruct rd; cbn [negb] in H.
      + exfalso. destruct tree; [discriminate|]. destruct (is_list_split _ _); [discriminate|]. destruct (sort_merge _); discriminate.
      + injection H as <-. apply Pc; auto. intros i s1 p Hs Im. apply (within_mono 0); [apply D0'|]. apply within_on.
        apply (exact_inside segs I (sr_radius r) Hr ms P1) with (i := i); auto. intro R. apply P2 in R. discriminate.
    - assert (Near : forall i s p, nth_error segs i = Some s -> In (i, p) ms -> within (inject_Z (reach (sr_radius r))) (sa (sx s)) (sb (sx s)) (qof p)).
      { intros i s1 p Hs Im. apply (pass_near (map sx segs) (sr_radius r) i (sx s1)); auto; [apply Forall_map, I|rewrite nth_error_map, Hs; auto|apply P1; auto]. }
      assert (R0 : (0 <= inject_Z (reach (sr_radius r)))%Q) by apply reach_pos.
      destruct rd; cbn [negb] in H.
      + subst n. cbn [drift].
        assert (K : forall t r', r' = sr_increment r -> loop (S fuel) solver t r' (sort_merge (split_pieces segs ms)) = Done out ->
           exists s0, In s0 segs /\ within (inject_Z (reach (sr_radius r) + drift fuel (sr_increment r))) (sa (sx s0)) (sb (sx s0)) (qof (sa (sx s))) /\
             within (inject_Z (reach (sr_radius r) + drift fuel (sr_increment r))) (sa (sx s0)) (sb (sx s0)) (qof (sb (sx s)))).
        { intros t r' -> H'. destruct (IH _ _ _ _ I' H' s Is) as (s1 & Is1 & A & B). destruct (Pc _ R0 Near s1 Is1) as (s0 & Is0 & A0 & B0).
          exists s0. split; auto. rewrite inject_Z_plus. split; apply (within_trans _ _ _ _ (sa (sx s1)) (sb (sx s1))); auto. }
        destruct tree; [eapply K; eauto|]. destruct (is_list_split solver _); [eapply K; eauto|].
        destruct (sort_merge (split_pieces segs ms)) as [|s0 rest] eqn:E1; [discriminate|]. eapply K; eauto.
      + injection H as <-. subst n. cbn [drift]. destruct (Pc _ R0 Near s Is) as (s0 & Is0 & A0 & B0). exists s0. split; auto.
        split; (eapply within_mono; [|eauto]); rewrite <- Zle_Qle; pose proof (drift_pos fuel (sr_increment r)); lia.
  Qed.
End Loop.
