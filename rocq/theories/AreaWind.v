(** * The sign of the area of a polygon is the direction in which it winds.

    Twice the area is the sum, over the unit slabs of the plane, of minus the signed heights of the edges in the middle of the slab;
    on every vertical line that sum is the integral of the winding number (Abel summation). *)
From Coq Require Import ZifyBool.
From Coq Require Import Qround Qminmax Qfield Lqa.
From Verif Require Import Base Spec QLib ModelExtract.
Open Scope Q_scope.

Fixpoint qsum {A} (f : A -> Q) (l : list A) : Q := match l with [] => 0 | x :: r => f x + qsum f r end.
Lemma qsum_plus {A} (f g : A -> Q) l : qsum (fun x => f x + g x) l == qsum f l + qsum g l.
Proof. induction l as [|x l IH]; cbn [qsum]; [ring|]. rewrite IH. ring. Qed.
Lemma qsum_ext {A} (f g : A -> Q) l : (forall x, In x l -> f x == g x) -> qsum f l == qsum g l.
Proof. intro H. induction l as [|x l IH]; cbn [qsum]; [reflexivity|]. rewrite IH, (H x) by (simpl; auto using in_cons). reflexivity. Qed.
Lemma qsum_scale {A} (c : Q) (f : A -> Q) l : qsum (fun x => c * f x) l == c * qsum f l.
Proof. induction l as [|x l IH]; cbn [qsum]; [ring|]. rewrite IH. ring. Qed.
Lemma qsum_swap {A B} (f : A -> B -> Q) l m : qsum (fun x => qsum (f x) m) l == qsum (fun y => qsum (fun x => f x y) l) m.
Proof.
  induction l as [|x l IH]; cbn [qsum].
  - induction m as [|y m IHm]; cbn [qsum]; [reflexivity|]. rewrite <- IHm. ring.
  - rewrite IH, <- qsum_plus. reflexivity.
Qed.
Lemma qsum_map {A B} (f : B -> Q) (g : A -> B) l : qsum f (map g l) = qsum (fun x => f (g x)) l.
Proof. induction l as [|x l IH]; cbn [qsum map]; congruence. Qed.
Lemma qsum_zsum {A} (f : A -> Z) l : inject_Z (zsum f l) == qsum (fun x => inject_Z (f x)) l.
Proof. induction l as [|x l IH]; [reflexivity|]. rewrite zsum_cons. cbn [qsum]. rewrite inject_Z_plus, IH. reflexivity. Qed.
Lemma qsum_perm {A} (f : A -> Q) l m : Permutation l m -> qsum f l == qsum f m.
Proof. induction 1; cbn [qsum]; [reflexivity|rewrite IHPermutation; reflexivity|ring|etransitivity; eassumption]. Qed.

(** ** Abel summation *)
Section Abel.
  (** signed heights *)
  Notation sh := (Z * Q)%type.
  Definition level (l : list sh) (y : Q) : Z := zsum (fun e => if Qltb (snd e) y then fst e else 0%Z) l.
  Definition moment (l : list sh) : Q := qsum (fun e => inject_Z (fst e) * snd e) l.
  Lemma level_zero l y : (forall e, In e l -> y <= snd e) -> level l y = 0%Z.
  Proof. intro H. apply zsum_zero. intros e I. rewrite (proj2 (Qltb_ge _ _) (H e I)). auto. Qed.
  Inductive asc : list sh -> Prop := asc_nil : asc [] | asc_cons e l : (forall x, In x l -> snd e <= snd x) -> asc l -> asc (e :: l).
  Fixpoint ins (e : sh) (l : list sh) : list sh := match l with [] => [e] | x :: r => if Qle_bool (snd e) (snd x) then e :: l else x :: ins e r end.
  Lemma ins_perm e l : Permutation (e :: l) (ins e l).
  Proof. induction l as [|x l IH]; [reflexivity|]. cbn [ins]. destruct (Qle_bool _ _); [reflexivity|]. rewrite perm_swap. apply perm_skip, IH. Qed.
  Lemma ins_asc e l : asc l -> asc (ins e l).
  Proof.
    induction 1 as [|x l H A IH]; [repeat constructor; intros ? []|]. cbn [ins]. destruct (Qle_bool _ _) eqn:E.
    - apply Qle_bool_iff in E. constructor; [|constructor; auto]. intros y [<-|I]; auto. eapply Qle_trans; eauto.
    - constructor; auto. intros y I. rewrite <- ins_perm in I. destruct I as [<-|I]; auto. apply Qlt_le_weak, Qnot_le_lt. intro X. apply Qle_bool_iff in X. congruence.
  Qed.
  Lemma sorted_exists (l : list sh) : exists m, Permutation l m /\ asc m.
  Proof. induction l as [|e l (m & P & A)]; [exists []; split; constructor|]. exists (ins e m). split; [rewrite <- ins_perm; apply perm_skip; auto|apply ins_asc; auto]. Qed.

  (** [a]: the sum of the signs so far, all at or below [y0]; [M]: above everything *)
  Lemma abel : forall l a y0 M, asc l -> (forall e, In e l -> y0 <= snd e <= M) -> y0 <= M -> (forall y, y0 < y -> (0 <= a + level l y)%Z) ->
    0 <= inject_Z a * (M - y0) + qsum (fun e => inject_Z (fst e) * (M - snd e)) l /\
    (forall y, y0 < y -> y <= M -> (0 < a + level l y)%Z -> 0 < inject_Z a * (M - y0) + qsum (fun e => inject_Z (fst e) * (M - snd e)) l).
  Proof.
    induction l as [|[s h] l IH]; intros a y0 M A B YM L; cbn [qsum fst snd].
    - assert (a0 : y0 < M -> (0 <= a)%Z) by (intro X; specialize (L M X); change (level [] M) with 0%Z in L; lia).
      destruct (Qlt_le_dec y0 M) as [X|X].
      + specialize (a0 X). assert (Qa : 0 <= inject_Z a) by (change 0 with (inject_Z 0); rewrite <- Zle_Qle; auto). assert (0 <= inject_Z a * (M - y0)) by (apply Qmult_le_0_compat; lra). split; [lra|].
        intros y Y1 Y2 Z. change (level [] y) with 0%Z in Z. assert (0 < inject_Z a) by (change 0 with (inject_Z 0); rewrite <- Zlt_Qlt; lia). assert (0 < inject_Z a * (M - y0)) by (apply Qmult_lt_0_compat; lra). lra.
      + assert (E : y0 == M) by lra. split; [rewrite E; ring_simplify; lra|]. intros y Y1 Y2. lra.
    - inversion A as [|? ? Hh Al]; subst. destruct (B (s, h) (or_introl eq_refl)) as [B1 B2]. cbn [fst snd] in *.
      assert (Ll : forall y, level ((s, h) :: l) y = ((if Qltb h y then s else 0) + level l y)%Z) by (intro y; unfold level; rewrite zsum_cons; reflexivity).
      destruct (IH (a + s)%Z h M Al) as [I1 I2].
      { intros e I. split; [apply Hh; auto|apply B; simpl; auto]. } { auto. }
      { intros y Y. specialize (L y (Qle_lt_trans _ _ _ B1 Y)). rewrite Ll, (proj2 (Qltb_lt h y) Y) in L. lia. }
      assert (E : inject_Z a * (M - y0) + (inject_Z s * (M - h) + qsum (fun e => inject_Z (fst e) * (M - snd e)) l) ==
                  inject_Z a * (h - y0) + (inject_Z (a + s) * (M - h) + qsum (fun e => inject_Z (fst e) * (M - snd e)) l)) by (rewrite inject_Z_plus; ring).
      rewrite E. set (R := inject_Z (a + s) * (M - h) + _) in *.
      assert (Ap : y0 < h -> (0 <= a)%Z).
      { intro X. specialize (L h X). rewrite Ll, (proj2 (Qltb_ge h h) (Qle_refl h)), level_zero in L by auto. lia. }
      assert (P0 : 0 <= inject_Z a * (h - y0)).
      { destruct (Qlt_le_dec y0 h) as [X|X]; [|assert (Eh : h == y0) by lra; rewrite Eh; ring_simplify; lra]. apply Qmult_le_0_compat; [|lra]. change 0 with (inject_Z 0). rewrite <- Zle_Qle. auto. }
      split; [lra|]. intros y Y1 Y2 Z. rewrite Ll in Z. destruct (Qltb h y) eqn:Hy.
      + apply Qltb_lt in Hy. assert (0 < R) by (apply (I2 y); auto; lia). lra.
      + apply Qltb_ge in Hy. rewrite level_zero in Z by (intros e I; eapply Qle_trans; [exact Hy|apply Hh; auto]).
        assert (0 < inject_Z a) by (change 0 with (inject_Z 0); rewrite <- Zlt_Qlt; lia). assert (y0 < h) by lra. assert (0 < inject_Z a * (h - y0)) by (apply Qmult_lt_0_compat; lra). lra.
  Qed.
  Lemma bounds (l : list sh) : exists m M, m < M /\ forall e, In e l -> m <= snd e <= M.
  Proof.
    induction l as [|[s h] l (m & M & L & H)]; [exists 0, 1; split; [lra|intros ? []]|].
    exists (Qmin m h - 1), (Qmax M h + 1). pose proof (Q.le_min_l m h). pose proof (Q.le_min_r m h). pose proof (Q.le_max_l M h). pose proof (Q.le_max_r M h).
    split; [lra|]. intros e [<-|I]; cbn; [lra|]. specialize (H e I). lra.
  Qed.
  Lemma level_perm l m y : Permutation l m -> level l y = level m y.
  Proof. apply zsum_perm. Qed.
  Theorem abel_sign (l : list sh) : zsum fst l = 0%Z -> (forall y, (0 <= level l y)%Z) ->
    moment l <= 0 /\ (forall y, (0 < level l y)%Z -> moment l < 0).
  Proof.
    intros T L. destruct (sorted_exists l) as (l' & P & A). destruct (bounds l) as (m & M & mM & B).
    assert (B' : forall e, In e l' -> m <= snd e <= M) by (intros e I; apply B; eapply Permutation_in; [apply Permutation_sym; exact P|auto]).
    destruct (abel l' 0 m M A B' (Qlt_le_weak _ _ mM)) as [H1 H2].
    { intros y _. rewrite <- (level_perm l l' y P). specialize (L y). lia. }
    assert (E : inject_Z 0 * (M - m) + qsum (fun e => inject_Z (fst e) * (M - snd e)) l' == - moment l).
    { rewrite <- (qsum_perm _ _ _ P). unfold moment.
      rewrite (qsum_ext _ (fun e => M * inject_Z (fst e) + (- (1)) * (inject_Z (fst e) * snd e))) by (intros; ring).
      rewrite qsum_plus, !qsum_scale, <- (qsum_zsum fst), T. change (inject_Z 0) with 0. ring. }
    rewrite E in H1. split; [lra|]. intros y Z.
    assert (0 < - moment l); [|lra]. rewrite <- E.
    destruct (Qlt_le_dec m y) as [X|X].
    - destruct (Qlt_le_dec M y) as [Y|Y]; [|apply (H2 y); auto; rewrite <- (level_perm l l' y P); lia].
      exfalso. assert (level l y = zsum fst l); [|lia]. apply zsum_ext. intros e I. rewrite (proj2 (Qltb_lt _ _)); auto. specialize (B e I). lra.
    - exfalso. rewrite level_zero in Z; [lia|]. intros e I. specialize (B e I). lra.
  Qed.
End Abel.

(** ** One vertical line *)
(** the sign of an edge on the vertical line at [x] (1: to the right) and its height there *)
Definition sgn_at (x : Q) (e : pt * pt) : Z := if spans (XS (fst e) (snd e)) x then 1 else if spans (XS (snd e) (fst e)) x then -1 else 0.
Definition hgt (x : Q) (e : pt * pt) : Q := if spans (XS (fst e) (snd e)) x then height (XS (fst e) (snd e)) x else height (XS (snd e) (fst e)) x.
Definition column (x : Q) (c : list pt) : list (Z * Q) := map (fun e => (sgn_at x e, hgt x e)) (edges c).

Lemma edge_wind_sgn x y e : edge_wind (x, y) e = if Qltb (hgt x e) y then sgn_at x e else 0%Z.
Proof.
  unfold edge_wind, sgn_at, hgt, under. cbn [fst snd]. destruct (spans (XS (fst e) (snd e)) x) eqn:S1; cbn [andb].
  - assert (S2 : spans (XS (snd e) (fst e)) x = false) by (apply spans_iff in S1; apply spans_false; simpl in *; lra). rewrite S2. cbn [andb]. destruct (Qltb _ _); auto.
  - destruct (spans (XS (snd e) (fst e)) x); cbn [andb]; destruct (Qltb _ _); auto.
Qed.
Lemma column_level x c y : level (column x c) y = contour_wind c (x, y).
Proof. unfold level, column, contour_wind. rewrite zsum_map. apply zsum_ext. intros e _. rewrite edge_wind_sgn. reflexivity. Qed.

(** sums of differences over the edges of a closed polygon *)
Lemma combine_tele (h : pt -> Z) : forall l p q, zsum (fun e : pt * pt => h (snd e) - h (fst e))%Z (combine (p :: l) (l ++ [q])) = (h q - h p)%Z.
Proof.
  induction l as [|x l IH]; intros p q.
  - cbn [combine app]. rewrite zsum_cons, zsum_nil. cbn [fst snd]. lia.
  - change (combine (p :: x :: l) ((x :: l) ++ [q])) with ((p, x) :: combine (x :: l) (l ++ [q])). rewrite zsum_cons, IH. cbn [fst snd]. lia.
Qed.
Lemma edges_tele (h : pt -> Z) c : zsum (fun e => h (snd e) - h (fst e))%Z (edges c) = 0%Z.
Proof. destruct c as [|p c]; [reflexivity|]. unfold edges. rewrite combine_tele. lia. Qed.
Lemma column_total x c : zsum fst (column x c) = 0%Z.
Proof.
  unfold column. rewrite zsum_map. cbn [fst]. rewrite <- (edges_tele (fun p => if Qle_bool (qx p) x then 0%Z else 1%Z) c). apply zsum_ext. intros [p q] _. cbn [fst snd].
  unfold sgn_at, spans, Qltb. cbn [fst snd sa sb]. destruct (Qle_bool (qx p) x) eqn:Ep, (Qle_bool (qx q) x) eqn:Eq; reflexivity.
Qed.
Definition F (c : list pt) (x : Q) : Q := - moment (column x c).
Lemma F_sign c x : (forall q, (0 <= contour_wind c q)%Z) -> 0 <= F c x /\ (forall y, (0 < contour_wind c (x, y))%Z -> 0 < F c x).
Proof.
  intro H. destruct (abel_sign (column x c) (column_total x c)) as [H1 H2].
  - intro y. rewrite column_level. apply H.
  - unfold F. split; [lra|]. intros y Y. rewrite <- column_level in Y. specialize (H2 y Y). lra.
Qed.

(** ** Unit slabs *)
Definition mid (n : Z) : Q := inject_Z n + (1 # 2).
Definition in_slab (n : Z) (x : Q) : Prop := inject_Z n <= x /\ x < inject_Z n + 1.
Lemma mid_slab n : in_slab n (mid n). Proof. unfold in_slab, mid. split; lra. Qed.
Lemma slab_le n x (z : Z) : in_slab n x -> Qle_bool (inject_Z z) x = (z <=? n)%Z.
Proof.
  intros [H1 H2]. apply bool_eq_iff. rewrite Qleb_le, Z.leb_le. split; intro H.
  - assert (inject_Z z < inject_Z (n + 1)) by (rewrite inject_Z_plus; change (inject_Z 1) with 1; lra). apply (proj1 (qz_lt _ _)) in H0. lia.
  - apply (proj2 (qz_le _ _)) in H. lra.
Qed.
Lemma slab_spans n x s : in_slab n x -> spans s x = ((px (sa s) <=? n) && (n <? px (sb s)))%Z.
Proof. intro H. unfold spans, Qltb, qx. rewrite !(slab_le n x) by auto. f_equal. rewrite Z.ltb_antisym. reflexivity. Qed.
Lemma slab_sgn n x x' e : in_slab n x -> in_slab n x' -> sgn_at x e = sgn_at x' e.
Proof. intros H H'. unfold sgn_at. rewrite !(slab_spans n x), !(slab_spans n x') by auto. reflexivity. Qed.
Lemma height_lin s x x' t : height s (x + t * (x' - x)) == height s x + t * (height s x' - height s x).
Proof. rewrite (height_affine s x (x + t * (x' - x))), (height_affine s x x'). ring. Qed.
Lemma F_lin c n x x' t : in_slab n x -> in_slab n x' -> in_slab n (x + t * (x' - x)) -> F c (x + t * (x' - x)) == F c x + t * (F c x' - F c x).
Proof.
  intros H H' H2. unfold F, moment, column. rewrite !qsum_map. cbn [fst snd].
  assert (E : qsum (fun e => inject_Z (sgn_at (x + t * (x' - x)) e) * hgt (x + t * (x' - x)) e) (edges c) ==
    qsum (fun e => inject_Z (sgn_at x e) * hgt x e + (t * (inject_Z (sgn_at x' e) * hgt x' e) + (- t) * (inject_Z (sgn_at x e) * hgt x e))) (edges c)).
  { apply qsum_ext. intros e _. rewrite (slab_sgn n (x + t * (x' - x)) x e H2 H), (slab_sgn n x' x e H' H). unfold hgt.
    rewrite !(slab_spans n x), !(slab_spans n x'), !(slab_spans n (x + t * (x' - x))) by auto. destruct (_ && _)%bool; rewrite height_lin; ring. }
  rewrite E. clear E. set (f := fun e => inject_Z (sgn_at x e) * hgt x e). set (f' := fun e => inject_Z (sgn_at x' e) * hgt x' e).
  change (- qsum (fun e => f e + (t * f' e + (- t) * f e)) (edges c) == - qsum f (edges c) + t * (- qsum f' (edges c) - - qsum f (edges c))).
  rewrite qsum_plus, qsum_plus, !qsum_scale. ring.
Qed.
Lemma slab_floor x : in_slab (Qfloor x) x.
Proof. unfold in_slab. split; [apply Qfloor_le|]. pose proof (Qlt_floor x) as H. rewrite inject_Z_plus in H. exact H. Qed.
(** positive somewhere in the slab: positive in its middle *)
Lemma F_mid c n x : (forall q, (0 <= contour_wind c q)%Z) -> in_slab n x -> 0 < F c x -> 0 < F c (mid n).
Proof.
  intros H Hx Px. set (t := - (1 # 2)). set (x1 := mid n + t * (x - mid n)).
  assert (S1 : in_slab n x1) by (destruct Hx; unfold in_slab, x1, t, mid in *; split; lra).
  pose proof (F_lin c n (mid n) x t (mid_slab n) Hx S1) as E. destruct (F_sign c x1 H) as [P1 _]. destruct (F_sign c (mid n) H) as [P0 _].
  fold x1 in E. unfold t in E. lra.
Qed.

(** ** The area *)
Definition slabs (lo : Z) (k : nat) : list Z := map (fun i => lo + Z.of_nat i)%Z (seq 0 k).
Lemma slabs_S lo k : slabs lo (S k) = slabs lo k ++ [(lo + Z.of_nat k)%Z].
Proof. unfold slabs. rewrite seq_S, map_app. reflexivity. Qed.
Lemma qsum_app {A} (f : A -> Q) l m : qsum f (l ++ m) == qsum f l + qsum f m.
Proof. induction l as [|x l IH]; cbn [qsum app]; [ring|]. rewrite IH. ring. Qed.
Lemma trapezoid s lo k : (lo <= px (sa s) < px (sb s))%Z -> (px (sb s) <= lo + Z.of_nat k)%Z ->
  2 * qsum (fun n => if spans s (mid n) then height s (mid n) else 0) (slabs lo k) == inject_Z ((px (sb s) - px (sa s)) * (py (sa s) + py (sb s))).
Proof.
  intros L R. set (m := slope s). set (c := fun n => Z.max (px (sa s)) (Z.min n (px (sb s)))).
  assert (K : forall j, 2 * qsum (fun n => if spans s (mid n) then height s (mid n) else 0) (slabs lo j) ==
     inject_Z (c (lo + Z.of_nat j)%Z - px (sa s)) * (2 * qy (sa s) + m * inject_Z (c (lo + Z.of_nat j)%Z - px (sa s)))).
  { induction j as [|j IH].
    - cbn [slabs seq map qsum]. unfold c. replace (Z.max _ _ - _)%Z with 0%Z by lia. change (inject_Z 0) with 0. ring.
    - rewrite slabs_S, qsum_app. cbn [qsum]. rewrite Qplus_0_r. ring_simplify. rewrite IH. clear IH. set (n := (lo + Z.of_nat j)%Z). replace (lo + Z.of_nat (S j))%Z with (n + 1)%Z by lia.
      rewrite (slab_spans n _ s (mid_slab n)). destruct (Z.leb_spec (px (sa s)) n), (Z.ltb_spec n (px (sb s))); cbn [andb].
      + assert (E1 : c n = n) by (unfold c; lia). assert (E2 : c (n + 1)%Z = (n + 1)%Z) by (unfold c; lia). rewrite E1, E2, height_slope. fold m. unfold mid, qx.
        rewrite !qz_sub, inject_Z_plus. change (inject_Z 1) with 1. ring.
      + assert (E1 : c n = c (n + 1)%Z) by (unfold c; lia). rewrite E1. ring.
      + assert (E1 : c n = c (n + 1)%Z) by (unfold c; lia). rewrite E1. ring.
      + lia. }
  rewrite K. assert (E : c (lo + Z.of_nat k)%Z = px (sb s)) by (unfold c; lia). rewrite E. unfold m, slope, qx, qy. rewrite inject_Z_mult, inject_Z_plus, !qz_sub.
  field. intro X. assert (Y : inject_Z (px (sb s)) == inject_Z (px (sa s))) by lra. apply (proj1 (qz_eq _ _)) in Y. lia.
Qed.
Lemma edge_area lo k e : (lo <= px (fst e) <= lo + Z.of_nat k)%Z -> (lo <= px (snd e) <= lo + Z.of_nat k)%Z ->
  2 * qsum (fun n => inject_Z (sgn_at (mid n) e) * hgt (mid n) e) (slabs lo k) == inject_Z ((px (snd e) - px (fst e)) * (py (fst e) + py (snd e))).
Proof.
  destruct e as [p q]. cbn [fst snd]. intros Hp Hq. destruct (Z_dec (px p) (px q)) as [[L|L]|L].
  - rewrite <- (trapezoid (XS p q) lo k) by (cbn [sa sb]; lia). apply Qmult_comp; [reflexivity|]. apply qsum_ext. intros n _. unfold sgn_at, hgt. cbn [fst snd].
    destruct (spans (XS p q) (mid n)) eqn:S1; [change (inject_Z 1) with 1; ring|]. rewrite (slab_spans n _ _ (mid_slab n)) in *. cbn [sa sb] in *.
    replace ((px q <=? n) && (n <? px p))%Z with false by lia. change (inject_Z 0) with 0. ring.
  - transitivity (- inject_Z ((px p - px q) * (py q + py p))); [|rewrite <- inject_Z_opp; apply qz_eq; ring].
    rewrite <- (trapezoid (XS q p) lo k) by (cbn [sa sb]; lia). setoid_replace (- (2 * qsum (fun n => if spans (XS q p) (mid n) then height (XS q p) (mid n) else 0) (slabs lo k))) with
      (2 * (- (1) * qsum (fun n => if spans (XS q p) (mid n) then height (XS q p) (mid n) else 0) (slabs lo k))) by ring.
    apply Qmult_comp; [reflexivity|]. rewrite <- qsum_scale. apply qsum_ext. intros n _. unfold sgn_at, hgt. cbn [fst snd].
    rewrite !(slab_spans n _ _ (mid_slab n)). cbn [sa sb]. replace ((px p <=? n) && (n <? px q))%Z with false by lia.
    destruct ((px q <=? n) && (n <? px p))%Z; [change (inject_Z (-1)) with (- (1)); ring|change (inject_Z 0) with 0; ring].
  - rewrite L, Z.sub_diag, Z.mul_0_l. change (inject_Z 0) with 0.
    rewrite (qsum_ext _ (fun _ => 0 * 0)); [rewrite qsum_scale; ring|]. intros n _. unfold sgn_at. cbn [fst snd]. rewrite !(slab_spans n _ _ (mid_slab n)). cbn [sa sb]. rewrite L.
    replace ((px q <=? n) && (n <? px q))%Z with false by lia. change (inject_Z 0) with 0. ring.
Qed.
Lemma edge_ends c e : In e (edges c) -> In (fst e) c /\ In (snd e) c.
Proof.
  destruct c as [|p c]; [intros []|]. unfold edges. destruct e as [a b]. intro I. cbn [fst snd]. split; [eapply in_combine_l; eauto|]. apply in_combine_r in I. apply in_app_iff in I. simpl in *. tauto.
Qed.
Lemma x_range (c : list pt) : exists lo k, forall p, In p c -> (lo <= px p < lo + Z.of_nat k)%Z.
Proof.
  induction c as [|p c (lo & k & H)]; [exists 0%Z, O; intros ? []|]. exists (Z.min lo (px p)), (Z.to_nat (Z.max (lo + Z.of_nat k) (px p + 1) - Z.min lo (px p))).
  intros q [<-|I]; [|specialize (H q I)]; lia.
Qed.
Lemma area_slabs c lo k : (forall p, In p c -> (lo <= px p < lo + Z.of_nat k)%Z) -> inject_Z (area2 c) == 2 * qsum (fun n => F c (mid n)) (slabs lo k).
Proof.
  intro H. assert (A : (area2 c = - zsum (fun e => (px (snd e) - px (fst e)) * (py (fst e) + py (snd e))) (edges c))%Z).
  { unfold area2. assert (T := edges_tele (fun p => px p * py p)%Z c). cbv beta in T.
    assert (E : zsum (fun e : pt * pt => px (fst e) * py (snd e) - px (snd e) * py (fst e))%Z (edges c) =
      (zsum (fun e => px (snd e) * py (snd e) - px (fst e) * py (fst e)) (edges c) - zsum (fun e => (px (snd e) - px (fst e)) * (py (fst e) + py (snd e))) (edges c))%Z).
    { rewrite <- zsum_minus. apply zsum_ext. intros e _. ring. }
    lia. }
  rewrite A, inject_Z_opp, qsum_zsum.
  rewrite (qsum_ext (fun e => inject_Z ((px (snd e) - px (fst e)) * (py (fst e) + py (snd e)))) (fun e => 2 * qsum (fun n => inject_Z (sgn_at (mid n) e) * hgt (mid n) e) (slabs lo k))).
  2:{ intros e I. apply edge_ends in I as [I1 I2]. apply H in I1, I2. symmetry. apply edge_area; lia. }
  rewrite qsum_scale, qsum_swap. unfold F, moment, column.
  rewrite (qsum_ext (fun n => - qsum (fun e => inject_Z (fst e) * snd e) (map (fun e => (sgn_at (mid n) e, hgt (mid n) e)) (edges c)))
     (fun n => - (1) * qsum (fun e => inject_Z (sgn_at (mid n) e) * hgt (mid n) e) (edges c))) by (intros n _; rewrite qsum_map; cbn [fst snd]; ring).
  rewrite qsum_scale. ring.
Qed.
Lemma qsum_nonneg {A} (f : A -> Q) l : (forall x, In x l -> 0 <= f x) -> 0 <= qsum f l.
Proof. intro H. induction l as [|x l IH]; cbn [qsum]; [lra|]. pose proof (H x (or_introl eq_refl)). assert (0 <= qsum f l) by (apply IH; intros; apply H; simpl; auto). lra. Qed.
Lemma qsum_pos {A} (f : A -> Q) l x : (forall x, In x l -> 0 <= f x) -> In x l -> 0 < f x -> 0 < qsum f l.
Proof.
  intros H I P. induction l as [|y l IH]; [destruct I|]. cbn [qsum]. assert (0 <= qsum f l) by (apply qsum_nonneg; intros; apply H; simpl; auto).
  destruct I as [->|I]; [lra|]. assert (0 < qsum f l) by (apply IH; auto; intros; apply H; simpl; auto). pose proof (H y (or_introl eq_refl)). lra.
Qed.
(** a polygon that winds around no point a negative number of times, and around some point a positive number of times, has positive area *)
Theorem area_positive c : (forall q, (0 <= contour_wind c q)%Z) -> (exists q, (0 < contour_wind c q)%Z) -> (0 < area2 c)%Z.
Proof.
  intros H ([x y] & Q). destruct (x_range c) as (lo & k & R). pose proof (area_slabs c lo k R) as E. destruct (F_sign c x H) as [_ Fx]. specialize (Fx y Q).
  pose proof (F_mid c _ x H (slab_floor x) Fx) as M. apply qz_lt. rewrite E. change (inject_Z 0) with 0.
  assert (0 < qsum (fun n => F c (mid n)) (slabs lo k)); [|lra].
  apply qsum_pos with (x := Qfloor x); auto; [intros n _; apply F_sign; auto|].
  assert (Sp : exists e, In e (edges c) /\ sgn_at x e <> 0%Z).
  { destruct (existsb (fun e => negb (sgn_at x e =? 0)%Z) (edges c)) eqn:X.
    - apply existsb_exists in X as (e & I & N). exists e. split; auto. apply negb_true_iff, Z.eqb_neq in N. auto.
    - exfalso. unfold contour_wind in Q. rewrite zsum_zero in Q; [lia|]. intros e I. rewrite edge_wind_sgn. assert (sgn_at x e = 0%Z); [|destruct (Qltb _ _); auto].
      destruct (Z.eq_dec (sgn_at x e) 0) as [|N]; auto. exfalso. assert (existsb (fun e => negb (sgn_at x e =? 0)%Z) (edges c) = true); [|congruence].
      apply existsb_exists. exists e. split; auto. apply negb_true_iff, Z.eqb_neq. auto. }
  destruct Sp as (e & I & N). apply edge_ends in I as [I1 I2]. apply R in I1, I2.
  unfold slabs. apply in_map_iff. exists (Z.to_nat (Qfloor x - lo)). rewrite in_seq.
  assert (B : (lo <= Qfloor x < lo + Z.of_nat k)%Z); [|lia].
  unfold sgn_at in N. rewrite !(slab_spans _ x _ (slab_floor x)) in N. cbn [sa sb fst snd] in N.
  destruct ((px (fst e) <=? Qfloor x) && (Qfloor x <? px (snd e)))%Z eqn:E1; [lia|]. destruct ((px (snd e) <=? Qfloor x) && (Qfloor x <? px (fst e)))%Z eqn:E2; [lia|congruence].
Qed.
