(** * The pieces of a stroke: the rectangle around a side, the triangles at a corner, the triangles of a cap. *)
From Verif Require Import Base Spec QLib ModelSegm SegmProofs SplitNear ModelMesh MeshProofs MeshStrip.
From Coq Require Import Reals Lra Psatz Qreals.
From Verif Require Import RealMesh RealJoin RealReach RealMiter RealWind RealMove RealCorner RealStroke.
Open Scope R_scope.

Notation rside := (rpt * rpt)%type.
Definition vec (x p : rpt) : rpt := (fst p - fst x, snd p - snd x).
Lemma dir_end x y : x <> y -> 0 < dist x y /\ y = off x (dir x y) (dist x y).
Proof.
  intro N. unfold dir, r_norm, off, dist, dist2. cbn [fst snd]. replace ((fst x - fst y) * (fst x - fst y) + (snd x - snd y) * (snd x - snd y)) with ((fst y - fst x) * (fst y - fst x) + (snd y - snd x) * (snd y - snd x)) by ring.
  set (w := (fst y - fst x) * (fst y - fst x) + (snd y - snd x) * (snd y - snd x)). assert (P : 0 < w).
  { destruct (Rle_or_lt w 0) as [L|L]; auto. exfalso. apply N. assert (fst y - fst x = 0 /\ snd y - snd x = 0) as [A B].
    { apply Rplus_sqr_eq_0. unfold Rsqr. fold w. pose proof (Rle_0_sqr (fst y - fst x)) as P1. pose proof (Rle_0_sqr (snd y - snd x)) as P2. unfold Rsqr in P1, P2. unfold w in *. lra. }
    destruct x, y. cbn [fst snd] in *. f_equal; lra. }
  pose proof (sqrt_lt_R0 w P). split; auto. destruct y as [y1 y2]. cbn [fst snd]. f_equal; field; lra.
Qed.

(** ** Corners of the rectangle around a side: to the left and to the right of its start and of its end *)
Section Points.
  Variable r : R.
  Definition la (e : rside) : rpt := off (fst e) (normal_of (dir (fst e) (snd e))) r.
  Definition lb (e : rside) : rpt := off (snd e) (normal_of (dir (fst e) (snd e))) r.
  Definition ra (e : rside) : rpt := off (fst e) (neg (normal_of (dir (fst e) (snd e)))) r.
  Definition rb (e : rside) : rpt := off (snd e) (neg (normal_of (dir (fst e) (snd e)))) r.
  Definition rect_wind (p : rpt) (e : rside) : Z := wind4 p (lb e) (la e) (ra e) (rb e).
  (** the point [p] lies in the rectangle of half width [r] around the side *)
  Definition in_strip (p : rpt) (e : rside) : Prop :=
    let u := dir (fst e) (snd e) in
    let w := vec (fst e) p in
    0 <= dot u w <= dist (fst e) (snd e) /\ Rabs (cross u w) <= r.
  Definition in_strip_open (p : rpt) (e : rside) : Prop :=
    let u := dir (fst e) (snd e) in
    let w := vec (fst e) p in
    0 < dot u w < dist (fst e) (snd e) /\ Rabs (cross u w) < r.
End Points.

Section Rect.
  Variables (r : R) (e : rside).
  Hypothesis Pr : 0 < r.
  Hypothesis N : fst e <> snd e.
  Let u := dir (fst e) (snd e).
  Let D := dist (fst e) (snd e).
  Lemma rect_turns p : turn3 (lb r e) (la r e) p = D * (r - cross u (vec (fst e) p)) /\ turn3 (la r e) (ra r e) p = 2 * r * dot u (vec (fst e) p) /\
    turn3 (ra r e) (rb r e) p = D * (r + cross u (vec (fst e) p)) /\ turn3 (rb r e) (lb r e) p = 2 * r * (D - dot u (vec (fst e) p)).
  Proof.
    destruct (dir_end _ _ N) as [Pd E]. fold u D in E, Pd. pose proof (dir_unit _ _ N) as U. fold u in U. unfold la, lb, ra, rb. fold u. rewrite E. unfold unit in U. destruct u as [u1 u2], (fst e) as [x1 x2], p as [p1 p2]. unfold turn3, off, neg, normal_of, cross, dot, vec. cbn [fst snd] in *.
    split; [|split; [|split]].
    - transitivity (D * (r * (u1 * u1 + u2 * u2) - (u1 * (p2 - x2) - u2 * (p1 - x1)))); [ring|rewrite U; ring].
    - ring.
    - transitivity (D * (r * (u1 * u1 + u2 * u2) + (u1 * (p2 - x2) - u2 * (p1 - x1)))); [ring|rewrite U; ring].
    - transitivity (2 * r * (D * (u1 * u1 + u2 * u2) - (u1 * (p1 - x1) + u2 * (p2 - x2)))); [ring|rewrite U; ring].
  Qed.
  Lemma rect_points : turn3 (lb r e) (la r e) (ra r e) = 2 * D * r /\ turn3 (lb r e) (ra r e) (rb r e) = 2 * D * r /\ turn3 (la r e) (ra r e) (rb r e) = 2 * D * r /\ turn3 (rb r e) (lb r e) (la r e) = 2 * D * r.
  Proof.
    destruct (dir_end _ _ N) as [Pd E]. fold u D in E, Pd. pose proof (dir_unit _ _ N) as U. fold u in U. unfold la, lb, ra, rb. fold u. rewrite E. unfold unit in U. destruct u as [u1 u2], (fst e) as [x1 x2]. unfold turn3, off, neg, normal_of, cross, dot, vec. cbn [fst snd] in *.
    replace (2 * D * r) with (2 * D * r * (u1 * u1 + u2 * u2)) by (rewrite U; ring). repeat split; ring.
  Qed.
  Lemma D_pos : 0 < D.
  Proof. apply dir_end, N. Qed.
  Lemma rect_wind_cases p : (rect_wind r p e = 1%Z /\ in4 p (lb r e) (la r e) (ra r e) (rb r e)) \/ (rect_wind r p e = 0%Z /\ ~ in4 p (lb r e) (la r e) (ra r e) (rb r e)).
  Proof.
    destruct rect_points as (A & B & C & E). pose proof D_pos. assert (0 < 2 * D * r) by (apply Rmult_lt_0_compat; lra).
    apply quad_wind; lra.
  Qed.
  Lemma rect_in p : (0 < rect_wind r p e)%Z -> in_strip r p e.
  Proof.
    destruct (rect_wind_cases p) as [[_ (A & B & C & E)]|[-> _]]; [|lia]. intros _. apply hleft_nonneg in A, B, C, E. destruct (rect_turns p) as (A' & B' & C' & E'). rewrite A' in A. rewrite B' in B. rewrite C' in C. rewrite E' in E.
    pose proof D_pos. unfold in_strip. cbv zeta. fold u D. set (t := cross u _) in *. set (s := dot u _) in *. split; [split; nra|]. apply Rabs_iff. split; nra.
  Qed.
  Lemma rect_open p : in_strip_open r p e -> rect_wind r p e = 1%Z.
  Proof.
    unfold in_strip_open. cbv zeta. fold u D. intros [[A B] C]. apply Rabs_def2 in C. destruct (rect_wind_cases p) as [[? _]|[_ H]]; auto. exfalso. apply H. pose proof D_pos. destruct (rect_turns p) as (A' & B' & C' & E').
    repeat split; apply hleft_strict; [rewrite A'|rewrite B'|rewrite C'|rewrite E']; apply Rmult_lt_0_compat; lra.
  Qed.
  (** a triangle with its corners in the rectangle *)
  Lemma rect_tri p a b c : 0 <= turn3 a b c -> in_strip r a e -> in_strip r b e -> in_strip r c e -> (wind3 p a b c <= rect_wind r p e)%Z.
  Proof.
    intros T A B C. destruct (Rle_lt_or_eq_dec _ _ T) as [T'|T'].
    - destruct (tri_wind p a b c T') as [[-> I]|[-> _]]; [|destruct (rect_wind_cases p) as [[-> _]|[-> _]]; lia].
      destruct (rect_wind_cases p) as [[-> _]|[_ H]]; [lia|]. exfalso. apply H. pose proof D_pos as Pd. destruct rect_points as (R1 & R2 & R3 & R4). assert (W : 0 < 2 * D * r) by (apply Rmult_lt_0_compat; lra).
      destruct (turn3_ne (lb r e) (la r e) (ra r e)) as (N1 & N2 & _); [lra|]. destruct (turn3_ne (lb r e) (ra r e) (rb r e)) as (_ & N3 & N4); [lra|].
      assert (K : forall x, in_strip r x e -> 0 <= turn3 (lb r e) (la r e) x /\ 0 <= turn3 (la r e) (ra r e) x /\ 0 <= turn3 (ra r e) (rb r e) x /\ 0 <= turn3 (rb r e) (lb r e) x).
      { intros x [[X1 X2] X3]. cbv zeta in X1, X2, X3. fold u D in X1, X2, X3. apply Rabs_iff in X3. destruct (rect_turns x) as (-> & -> & -> & ->). repeat split; apply Rmult_le_pos; lra. }
      destruct (K a A) as (A1 & A2 & A3 & A4), (K b B) as (B1 & B2 & B3 & B4), (K c C) as (C1 & C2 & C3 & C4).
      repeat split; apply (tri_half p a b c); auto.
    - rewrite (tri_flat p a b c) by auto. destruct (rect_wind_cases p) as [[-> _]|[-> _]]; lia.
  Qed.
  Lemma strip_la : in_strip r (la r e) e. Proof. pose proof D_pos. pose proof (dir_unit _ _ N) as U. fold u in U. unfold unit in U. unfold in_strip, la. cbv zeta. fold u D. rewrite Rabs_iff. destruct u as [u1 u2]. unfold dot, cross, vec, off, normal_of. cbn [fst snd] in *. 
    replace (u1 * (fst (fst e) + - u2 * r - fst (fst e)) + u2 * (snd (fst e) + u1 * r - snd (fst e))) with 0 by ring. replace (u1 * (snd (fst e) + u1 * r - snd (fst e)) - u2 * (fst (fst e) + - u2 * r - fst (fst e))) with (r * (u1 * u1 + u2 * u2)) by ring. rewrite U. lra. Qed.
End Rect.

(** ** Triangles *)
Definition in_tri (p a b c : rpt) : Prop := 0 < turn3 a b c /\ 0 <= turn3 a b p /\ 0 <= turn3 b c p /\ 0 <= turn3 c a p.
Definition in_tri_open (p a b c : rpt) : Prop := 0 < turn3 a b c /\ 0 < turn3 a b p /\ 0 < turn3 b c p /\ 0 < turn3 c a p.
Lemma tri_in p a b c : 0 <= turn3 a b c -> (0 < wind3 p a b c)%Z -> in_tri p a b c.
Proof.
  intros T W. destruct (Rle_lt_or_eq_dec _ _ T) as [T'|T']; [|rewrite (tri_flat p a b c) in W by auto; lia].
  destruct (tri_wind p a b c T') as [[_ (A & B & C)]|[E _]]; [|lia]. apply hleft_nonneg in A, B, C. repeat split; auto.
Qed.
Lemma tri_open p a b c : in_tri_open p a b c -> wind3 p a b c = 1%Z.
Proof.
  intros (T & A & B & C). destruct (tri_wind p a b c T) as [[E _]|[_ H]]; auto. exfalso. apply H. repeat split; apply hleft_strict; auto.
Qed.
(** the triangles of a fan around [y] *)
Definition tris (p y : rpt) (l : list rpt) : Z := zsum (fun e => wind3 p y (snd e) (fst e)) (steps l).
Lemma zsum_nonneg {A} (f : A -> Z) l : (forall x, In x l -> (0 <= f x)%Z) -> (0 <= zsum f l)%Z.
Proof. induction l as [|a l IH]; intro H; [apply Z.le_refl|]. rewrite zsum_cons. pose proof (H a (or_introl eq_refl)). specialize (IH (fun x I => H x (or_intror I))). lia. Qed.
Lemma zsum_ge {A} (f : A -> Z) l x : (forall x, In x l -> (0 <= f x)%Z) -> In x l -> (f x <= zsum f l)%Z.
Proof.
  induction l as [|a l IH]; intros H I; [destruct I|]. rewrite zsum_cons. pose proof (H a (or_introl eq_refl)). pose proof (zsum_nonneg f l (fun x I => H x (or_intror I))). destruct I as [->|I]; [lia|].
  specialize (IH (fun x I => H x (or_intror I)) I). lia.
Qed.
Lemma zsum_pos {A} (f : A -> Z) l : (0 < zsum f l)%Z -> exists x, In x l /\ (0 < f x)%Z.
Proof.
  induction l as [|a l IH]; [discriminate|]. rewrite zsum_cons. intro H. destruct (Z_lt_le_dec 0 (f a)); [exists a; simpl; auto|]. destruct IH as (x & I & P); [lia|]. exists x. simpl; auto.
Qed.
Lemma tris_nonneg p y l : fan y l -> (0 <= tris p y l)%Z.
Proof. intro H. apply zsum_nonneg. intros [a b] I. cbn [fst snd]. apply tri_nonneg. apply H. auto. Qed.
Lemma tris_in p y l : fan y l -> (0 < tris p y l)%Z -> exists a b, In (a, b) (steps l) /\ in_tri p y b a.
Proof. intros H P. apply zsum_pos in P as ([a b] & I & P). exists a, b. split; auto. apply tri_in; auto. Qed.
Lemma tris_open p y l a b : fan y l -> In (a, b) (steps l) -> in_tri_open p y b a -> (0 < tris p y l)%Z.
Proof.
  intros H I T. apply Z.lt_le_trans with (wind3 p y b a); [rewrite tri_open; auto; lia|]. apply (zsum_ge (fun e => wind3 p y (snd e) (fst e)) (steps l) (a, b)); auto.
  intros [c d] J. cbn [fst snd]. apply tri_nonneg. auto.
Qed.

(** ** A corner *)
Section Bend.
  Variables (to_int : rpt -> pt) (j : line_join RF) (r : R).
  Definition dir_of (e : rside) : rpt := dir (fst e) (snd e).
  Definition turning (e f : rside) : R := cross (dir_of e) (dir_of f).
  (** what is drawn (backwards) on the left and on the right of the corner between the sides [e] and [f] *)
  Definition ltop (e f : rside) : list rpt := lb r e :: left_mids to_int j r (snd e) (dir_of e) (dir_of f) ++ [la r f].
  Definition lbot (e f : rside) : list rpt := ra r f :: right_mids to_int j r (snd e) (dir_of e) (dir_of f) ++ [rb r e].
  Definition outer (e f : rside) : list rpt := if Rltb 0 (turning e f) then lbot e f else ltop e f.
  Definition inner (p : rpt) (e f : rside) : Z := if Rltb 0 (turning e f) then wind3 p (snd e) (lb r e) (la r f) else wind3 p (snd e) (ra r f) (rb r e).
  Section One.
    Variables (e f : rside).
    Hypothesis Pr : 0 < r.
    Hypothesis Ne : fst e <> snd e.
    Hypothesis Nf : fst f <> snd f.
    Hypothesis Ch : snd e = fst f.
    Lemma fan_outer : fan (snd e) (outer e f).
    Proof.
      pose proof (dir_unit _ _ Ne) as U. pose proof (dir_unit _ _ Nf) as V. unfold outer, ltop, lbot, left_mids, right_mids. fold (turning e f).
      destruct (Rltb 0 (turning e f)) eqn:E; [apply Rltb_true in E|apply Rltb_false in E]; unfold turning, dir_of in *; unfold la, lb, ra, rb; rewrite <- Ch.
      - change (neg (normal_of (dir (snd e) (snd f)))) with (normal_of (neg (dir (snd e) (snd f)))). change (neg (normal_of (dir (fst e) (snd e)))) with (normal_of (neg (dir (fst e) (snd e)))).
        rewrite <- Ch in V, E. apply fan_mids; auto using unit_neg. unfold cross, neg in *. cbn [fst snd] in *. lra.
      - rewrite <- Ch in V, E. apply fan_mids; auto.
    Qed.
    Lemma tris_two p y a b : tris p y [a; b] = wind3 p y b a.
    Proof. unfold tris. cbn [steps]. rewrite zsum_cons. cbn [fst snd]. change (zsum (fun e : rpt * rpt => wind3 p y (snd e) (fst e)) []) with 0%Z. lia. Qed.
    Lemma corner_sum p : (tris p (snd e) (ltop e f) + tris p (snd e) (lbot e f) = tris p (snd e) (outer e f) - inner p e f)%Z.
    Proof.
      unfold outer, inner. destruct (Rltb 0 (turning e f)) eqn:E.
      - assert (L : ltop e f = [lb r e; la r f]) by (unfold ltop, left_mids; fold (turning e f); rewrite E; reflexivity). rewrite L, tris_two, (wind3_flip p (snd e) (lb r e) (la r f)). lia.
      - assert (L : lbot e f = [ra r f; rb r e]) by (unfold lbot, right_mids; fold (turning e f); rewrite E; reflexivity). rewrite L, tris_two, (wind3_flip p (snd e) (ra r f) (rb r e)). lia.
    Qed.
    Lemma inner_turn : 0 <= if Rltb 0 (turning e f) then turn3 (snd e) (lb r e) (la r f) else turn3 (snd e) (ra r f) (rb r e).
    Proof.
      unfold la, lb, ra, rb. rewrite <- Ch. unfold turning, dir_of. rewrite Ch at 1. rewrite <- Ch. assert (0 <= r * r) by (apply Rmult_le_pos; lra).
      destruct (Rltb 0 _) eqn:E; [apply Rltb_true in E|apply Rltb_false in E]; rewrite turn3_off; apply Rmult_le_pos; auto; unfold cross, neg, normal_of in *; cbn [fst snd] in *; rewrite <- ?Ch in E; lra.
    Qed.
    Lemma inner_nonneg p : (0 <= inner p e f)%Z.
    Proof. pose proof inner_turn. unfold inner. destruct (Rltb 0 (turning e f)); apply tri_nonneg; auto. Qed.
    (** the inner triangle lies in the rectangles of both sides if these are long enough *)
    Lemma strip_end g w k : fst g <> snd g -> - dist (fst g) (snd g) <= k * dot (dir_of g) w <= 0 -> - r <= k * cross (dir_of g) w <= r -> in_strip r (off (snd g) w k) g.
    Proof.
      intros Ng A B. destruct (dir_end _ _ Ng) as [Pd E]. pose proof (dir_unit _ _ Ng) as U. unfold in_strip. cbv zeta. rewrite Rabs_iff. fold (dir_of g) in *. unfold unit in U. set (d := dist _ _) in *.
      replace (dot (dir_of g) (vec (fst g) (off (snd g) w k))) with (k * dot (dir_of g) w + d).
      - replace (cross (dir_of g) (vec (fst g) (off (snd g) w k))) with (k * cross (dir_of g) w); [lra|]. rewrite E. unfold cross, vec, off. cbn [fst snd]. ring.
      - rewrite E. unfold dot, vec, off. cbn [fst snd]. transitivity (k * (fst (dir_of g) * fst w + snd (dir_of g) * snd w) + d * (fst (dir_of g) * fst (dir_of g) + snd (dir_of g) * snd (dir_of g))); [rewrite U; ring|ring].
    Qed.
    Lemma strip_start g w k : 0 <= k * dot (dir_of g) w <= dist (fst g) (snd g) -> - r <= k * cross (dir_of g) w <= r -> in_strip r (off (fst g) w k) g.
    Proof.
      intros A B. unfold in_strip. cbv zeta. rewrite Rabs_iff. fold (dir_of g) in *.
      replace (dot (dir_of g) (vec (fst g) (off (fst g) w k))) with (k * dot (dir_of g) w) by (unfold dot, vec, off; cbn [fst snd]; ring).
      replace (cross (dir_of g) (vec (fst g) (off (fst g) w k))) with (k * cross (dir_of g) w) by (unfold cross, vec, off; cbn [fst snd]; ring). lra.
    Qed.
    Lemma off_zero (y w : rpt) : off y w 0 = y.
    Proof. destruct y. unfold off. cbn [fst snd]. f_equal; ring. Qed.
    Lemma normal_facts (u v : rpt) : dot u (normal_of v) = - cross u v /\ cross u (normal_of v) = dot u v /\ dot u (neg (normal_of v)) = cross u v /\ cross u (neg (normal_of v)) = - dot u v /\ cross v u = - cross u v /\ dot v u = dot u v.
    Proof. unfold dot, cross, neg, normal_of. cbn [fst snd]. repeat split; ring. Qed.
    Lemma self_facts u : unit u -> cross u u = 0 /\ dot u u = 1.
    Proof. unfold unit, dot, cross. intro H. split; [ring|exact H]. Qed.
    Lemma inner_rects p : r * Rabs (turning e f) <= dist (fst e) (snd e) -> r * Rabs (turning e f) <= dist (fst f) (snd f) -> (inner p e f <= rect_wind r p e /\ inner p e f <= rect_wind r p f)%Z.
    Proof.
      intros L L'. pose proof inner_turn as T. pose proof (dir_unit _ _ Ne) as U. pose proof (dir_unit _ _ Nf) as V. destruct (dir_end _ _ Ne) as [Pd _]. destruct (dir_end _ _ Nf) as [Pf _].
      pose proof (dot_range _ _ U V) as Dr. fold (dir_of e) (dir_of f) in *.
      assert (Dm : - r <= r * dot (dir_of e) (dir_of f) <= r) by (split; nra).
      destruct (self_facts _ U) as [U1 U2], (self_facts _ V) as [V1 V2].
      destruct (normal_facts (dir_of e) (dir_of e)) as (E1 & E2 & E3 & E4 & _), (normal_facts (dir_of f) (dir_of f)) as (F1 & F2 & F3 & F4 & _).
      destruct (normal_facts (dir_of e) (dir_of f)) as (M1 & M2 & M3 & M4 & M5 & M6), (normal_facts (dir_of f) (dir_of e)) as (N1 & N2 & N3 & N4 & _). fold (turning e f) in *.
      assert (Iy : in_strip r (snd e) e) by (rewrite <- (off_zero (snd e) (dir_of e)); apply strip_end; auto; lra).
      assert (Iy' : in_strip r (snd e) f) by (rewrite Ch, <- (off_zero (fst f) (dir_of f)); apply strip_start; lra).
      unfold inner. destruct (Rltb 0 (turning e f)) eqn:Q; [apply Rltb_true in Q; rewrite Rabs_pos_eq in L, L' by lra|apply Rltb_false in Q; rewrite Rabs_left1 in L, L' by lra].
      1: assert (S : 0 <= r * turning e f) by (apply Rmult_le_pos; lra).
      2: assert (S : 0 <= r * - turning e f) by (apply Rmult_le_pos; lra).
      all: split; apply rect_tri; auto; unfold la, lb, ra, rb; fold (dir_of e) (dir_of f).
      - apply strip_end; auto; rewrite ?E1, ?E2, ?U1, ?U2; lra.
      - rewrite <- Ch. apply strip_end; auto; rewrite ?M1, ?M2; lra.
      - rewrite Ch. apply strip_start; rewrite ?N1, ?N2, ?M5, ?M6; lra.
      - apply strip_start; rewrite ?F1, ?F2, ?V1, ?V2; lra.
      - rewrite <- Ch. apply strip_end; auto; rewrite ?M3, ?M4; lra.
      - apply strip_end; auto; rewrite ?E3, ?E4, ?U1, ?U2; lra.
      - apply strip_start; rewrite ?F3, ?F4, ?V1, ?V2; lra.
      - rewrite Ch. apply strip_start; rewrite ?N3, ?N4, ?M5, ?M6; lra.
    Qed.
  End One.
End Bend.

(** ** Caps *)
Definition cap_pt (d c p : rpt) : rpt := (fst p * fst d - snd p * snd d + fst c, fst p * snd d + snd p * fst d + snd c).
(** The points of a cap in the frame whose first axis points away from the path, between the two corners [(0, -r)] and [(0, r)]. *)
Definition cap_frame (c : line_cap RF) (r : R) : list rpt := (0, - r) :: opt_points RF (cap_points RF (cap_normalize RF c) r) ++ [(0, r)].
(** every cap but a custom one goes around its centre to the left; a custom one must be asked to *)
Definition cap_left (c : line_cap RF) : Prop :=
  match c with Custom _ points => forall a b, In (a, b) (steps ((0, -1) :: points ++ [(0, 1)])) -> 0 <= cross a b | _ => True end.
Definition cap_start (c : line_cap RF) (r : R) (e : rside) : list rpt := map (cap_pt (neg (dir_of e)) (fst e)) (cap_frame c r).
Definition cap_end (c : line_cap RF) (r : R) (e : rside) : list rpt := map (cap_pt (dir_of e) (snd e)) (cap_frame c r).
Lemma round_loop_map th r : forall k v, round_loop RF k (rot_angle RF th) v r = map (fun i => (fst (rotv (INR i * th) v) * r, snd (rotv (INR i * th) v) * r)) (seq 1 k).
Proof.
  induction k as [|k IH]; intro v; [reflexivity|]. cbn [round_loop seq map]. cbv zeta. rewrite rotate_real, IH, <- (seq_shift k 1), map_map. f_equal.
  - change (INR 1) with 1. rewrite Rmult_1_l. reflexivity.
  - apply map_ext. intro i. rewrite rotv_add, S_INR. replace (INR i * th + th) with ((INR i + 1) * th) by ring. reflexivity.
Qed.
Lemma frame_turns c r : 0 <= r -> cap_left c -> forall a b, In (a, b) (steps (cap_frame c r)) -> 0 <= cross a b.
Proof.
  intros Pr Cl a b. unfold cap_frame. assert (Rr : 0 <= r * r) by (apply Rmult_le_pos; auto). destruct c as [|ang| |points]; cbn [cap_normalize cap_points opt_points].
  - intros [E|[]]. injection E as <- <-. unfold cross. cbn [fst snd]. lra.
  - unfold round_points. set (n := if n_lt RF _ _ then _ else _). assert (N : exists k, n = S k /\ 1 <= INR k).
    { unfold n. destruct (n_lt RF _ _); [|exists 1023%nat; split; [reflexivity|]; change 1 with (INR 1); apply le_INR; lia].
      set (m := d_usize RF _). exists (Nat.min (Nat.max m 2) 1024 - 1)%nat. split; [lia|]. change 1 with (INR 1). apply le_INR. lia. }
    destruct N as (k & -> & K). replace (S k - 1)%nat with k by lia. cbn [RF d_div d_pi d_of_nat f_xy]. unfold lit. cbn [RF from_f64 d_lit]. rewrite q_0, q_m1.
    set (th := PI / INR (S k)). rewrite round_loop_map. set (P := fun i : nat => (fst (rotv (INR i * th) (0, -1)) * r, snd (rotv (INR i * th) (0, -1)) * r)).
    pose proof PI_RGT_0 as Pi. assert (Sk : 2 <= INR (S k)) by (rewrite S_INR; lra).
    assert (E : (0, - r) :: map P (seq 1 k) ++ [(0, r)] = map P (seq 0 (S (S k)))).
    { change (seq 0 (S (S k))) with (0%nat :: seq 1 (S k)). rewrite (seq_S k 1), map_cons, map_app. cbn [map Nat.add]. f_equal; [|f_equal; f_equal].
      - unfold P, rotv. simpl (INR 0). rewrite Rmult_0_l, sin_0, cos_0. cbn [fst snd]. f_equal; ring.
      - unfold P, rotv, th. replace (INR (S k) * (PI / INR (S k))) with PI by (field; lra). rewrite sin_PI, cos_PI. cbn [fst snd]. f_equal; ring. }
    change (In (a, b) (steps ((0, - r) :: map P (seq 1 k) ++ [(0, r)])) -> 0 <= cross a b). rewrite E. intro H. apply steps_seq in H as (m & -> & ->). unfold P.
    replace (INR (S m) * th) with (th + INR m * th) by (rewrite S_INR; ring). rewrite <- rotv_add. set (w := rotv (INR m * th) (0, -1)).
    assert (Uw : unit w) by (apply rotv_unit; unfold unit; cbn [fst snd]; ring). unfold unit in Uw. unfold cross, rotv. cbn [fst snd].
    replace (fst w * r * ((sin th * fst w + cos th * snd w) * r) - snd w * r * ((cos th * fst w - sin th * snd w) * r)) with (r * r * (sin th * (fst w * fst w + snd w * snd w))) by ring. rewrite Uw, Rmult_1_r. apply Rmult_le_pos; auto.
    assert (0 < / INR (S k) <= / 2) by (split; [apply Rinv_0_lt_compat; lra|apply Rinv_le_contravar; lra]). apply sin_ge_0; unfold th, Rdiv; nra.
  - unfold square_points. cbn [RF f_xy n_neg app]. intros [E|[E|[E|[]]]]; injection E as <- <-; unfold cross; cbn [fst snd]; nra.
  - intro H. cbn [RF p_scale] in H. specialize (Cl).
    assert (E : (0, - r) :: map (fun p : fp RF => (fst p * r, snd p * r)) points ++ [(0, r)] = map (fun p : rpt => (fst p * r, snd p * r)) ((0, -1) :: points ++ [(0, 1)])).
    { cbn [map fst snd]. rewrite map_app. cbn [map fst snd]. rewrite Rmult_0_l. replace (-1 * r) with (- r) by ring. rewrite Rmult_1_l. reflexivity. }
    assert (H' : In (a, b) (steps (map (fun p : rpt => (fst p * r, snd p * r)) ((0, -1) :: points ++ [(0, 1)])))) by (rewrite <- E; exact H). clear H. rename H' into H. rewrite steps_map in H. apply in_map_iff in H as ([a' b'] & Q & I). cbn [fst snd] in Q. injection Q as <- <-. specialize (Cl a' b' I).
    unfold cross in *. cbn [fst snd]. replace (fst a' * r * (snd b' * r) - snd a' * r * (fst b' * r)) with (r * r * (fst a' * snd b' - snd a' * fst b')) by ring. apply Rmult_le_pos; auto.
Qed.
Definition cfan (y : rpt) (l : list rpt) : Prop := forall a b, In (a, b) (steps l) -> 0 <= turn3 y a b.
Definition ctris (p y : rpt) (l : list rpt) : Z := zsum (fun e => wind3 p y (fst e) (snd e)) (steps l).
Lemma ctris_nonneg p y l : cfan y l -> (0 <= ctris p y l)%Z.
Proof. intro H. apply zsum_nonneg. intros [a b] I. cbn [fst snd]. apply tri_nonneg. apply H. auto. Qed.
Lemma ctris_in p y l : cfan y l -> (0 < ctris p y l)%Z -> exists a b, In (a, b) (steps l) /\ in_tri p y a b.
Proof. intros H P. apply zsum_pos in P as ([a b] & I & P). exists a, b. split; auto. apply tri_in; auto. Qed.
Lemma ctris_open p y l a b : cfan y l -> In (a, b) (steps l) -> in_tri_open p y a b -> (0 < ctris p y l)%Z.
Proof.
  intros H I T. apply Z.lt_le_trans with (wind3 p y a b); [rewrite tri_open; auto; lia|]. apply (zsum_ge (fun e => wind3 p y (fst e) (snd e)) (steps l) (a, b)); auto.
  intros [c d] J. cbn [fst snd]. apply tri_nonneg. auto.
Qed.
Lemma cap_fan d c y r : unit d -> 0 <= r -> cap_left c -> cfan y (map (cap_pt d y) (cap_frame c r)).
Proof.
  intros U Pr Cl a b H. rewrite steps_map in H. apply in_map_iff in H as ([a' b'] & Q & I). cbn [fst snd] in Q. injection Q as <- <-. pose proof (frame_turns c r Pr Cl a' b' I) as P.
  replace (turn3 y (cap_pt d y a') (cap_pt d y b')) with (cross a' b' * (fst d * fst d + snd d * snd d)) by (unfold turn3, cap_pt, cross; cbn [fst snd]; ring). unfold unit in U. rewrite U, Rmult_1_r. auto.
Qed.
Lemma cap_start_ends c r e : cap_start c r e = la r e :: map (cap_pt (neg (dir_of e)) (fst e)) (opt_points RF (cap_points RF (cap_normalize RF c) r)) ++ [ra r e].
Proof.
  unfold cap_start, cap_frame. cbn [map]. rewrite map_app. cbn [map]. f_equal; [|f_equal; f_equal]; unfold cap_pt, la, ra, off, neg, normal_of, dir_of; cbn [fst snd]; f_equal; ring.
Qed.
Lemma cap_end_ends c r e : cap_end c r e = rb r e :: map (cap_pt (dir_of e) (snd e)) (opt_points RF (cap_points RF (cap_normalize RF c) r)) ++ [lb r e].
Proof.
  unfold cap_end, cap_frame. cbn [map]. rewrite map_app. cbn [map]. f_equal; [|f_equal; f_equal]; unfold cap_pt, lb, rb, off, neg, normal_of, dir_of; cbn [fst snd]; f_equal; ring.
Qed.
