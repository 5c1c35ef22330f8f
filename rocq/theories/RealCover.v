(** * A stroke covers the union of its pieces. *)
From Verif Require Import Base Spec QLib ModelSegm SegmProofs SplitNear ModelMesh MeshProofs MeshStrip.
From Coq Require Import Reals Lra Psatz Qreals.
From Verif Require Import RealMesh RealJoin RealReach RealMiter RealWind RealMove RealCorner RealStroke RealPieces RealCount.
Open Scope R_scope.

(** ** A point of a closed piece is as near as one likes to points inside it *)
Lemma push (p c : rpt) d : 0 < d -> exists t, 0 < t < 1 /\ rclose d (fst p + t * (fst c - fst p), snd p + t * (snd c - snd p)) p.
Proof.
  intro D. set (m := 1 + Rabs (fst c - fst p) + Rabs (snd c - snd p)). pose proof (Rabs_pos (fst c - fst p)) as A. pose proof (Rabs_pos (snd c - snd p)) as B. assert (M : 1 <= m) by (unfold m; lra).
  exists (Rmin (1 / 2) (d / m)). assert (0 < d / m) by (apply Rdiv_lt_0_compat; lra). assert (Q : d / m * m = d) by (field; lra).
  set (t := Rmin (1 / 2) (d / m)). assert (T1 : t <= 1 / 2) by apply Rmin_l. assert (T2 : t <= d / m) by apply Rmin_r. assert (T0 : 0 < t) by (unfold t; apply Rmin_pos; lra). split; [lra|].
  split; cbn [fst snd]; [replace (fst p + t * (fst c - fst p) - fst p) with (t * (fst c - fst p)) by ring|replace (snd p + t * (snd c - snd p) - snd p) with (t * (snd c - snd p)) by ring];
    rewrite Rabs_mult, (Rabs_pos_eq t) by lra; (apply Rle_trans with (t * m); [apply Rmult_le_compat_l; unfold m; lra|rewrite <- Q; apply Rmult_le_compat_r; lra]).
Qed.
Lemma turn3_mix a b p c t : turn3 a b (fst p + t * (fst c - fst p), snd p + t * (snd c - snd p)) = (1 - t) * turn3 a b p + t * turn3 a b c.
Proof. unfold turn3. cbn [fst snd]. ring. Qed.
Lemma mix_pos t x y : 0 < t < 1 -> 0 <= x -> 0 < y -> 0 < (1 - t) * x + t * y.
Proof. intros. assert (0 <= (1 - t) * x) by (apply Rmult_le_pos; lra). assert (0 < t * y) by (apply Rmult_lt_0_compat; lra). lra. Qed.
Lemma tri_push p a b c d : 0 < d -> in_tri p a b c -> exists p', rclose d p' p /\ in_tri_open p' a b c.
Proof.
  intros D (T & A & B & C). set (g := ((fst a + fst b + fst c) / 3, (snd a + snd b + snd c) / 3)). destruct (push p g d D) as (t & Ht & Cl).
  exists (fst p + t * (fst g - fst p), snd p + t * (snd g - snd p)). split; auto.
  assert (G : turn3 a b g = turn3 a b c / 3 /\ turn3 b c g = turn3 a b c / 3 /\ turn3 c a g = turn3 a b c / 3) by (unfold g, turn3; cbn [fst snd]; repeat split; field).
  destruct G as (G1 & G2 & G3). split; auto. rewrite !turn3_mix, G1, G2, G3. repeat split; apply mix_pos; auto; lra.
Qed.
Lemma strip_push r p e d : 0 < r -> fst e <> snd e -> 0 < d -> in_strip r p e -> exists p', rclose d p' p /\ in_strip_open r p' e.
Proof.
  intros Pr N D [[A B] C]. destruct (dir_end _ _ N) as [Pd E]. pose proof (dir_unit _ _ N) as U. unfold unit in U. set (u := dir (fst e) (snd e)) in *. set (l := dist (fst e) (snd e)) in *.
  destruct (push p (off (fst e) u (l / 2)) d D) as (t & Ht & Cl). set (g := off (fst e) u (l / 2)) in *.
  exists (fst p + t * (fst g - fst p), snd p + t * (snd g - snd p)). split; auto. unfold in_strip_open. fold u l. cbv zeta in *. apply Rabs_iff in C.
  assert (G1 : dot u (vec (fst e) g) = l / 2). { unfold g, dot, vec, off. cbn [fst snd]. transitivity (l / 2 * (fst u * fst u + snd u * snd u)); [ring|rewrite U; ring]. }
  assert (G2 : cross u (vec (fst e) g) = 0) by (unfold g, cross, vec, off; cbn [fst snd]; ring).
  replace (dot u (vec (fst e) (fst p + t * (fst g - fst p), snd p + t * (snd g - snd p)))) with ((1 - t) * dot u (vec (fst e) p) + t * dot u (vec (fst e) g)) by (unfold dot, vec; cbn [fst snd]; ring).
  replace (cross u (vec (fst e) (fst p + t * (fst g - fst p), snd p + t * (snd g - snd p)))) with ((1 - t) * cross u (vec (fst e) p) + t * cross u (vec (fst e) g)) by (unfold cross, vec; cbn [fst snd]; ring).
  rewrite G1, G2. set (a := dot u _) in *. set (c := cross u _) in *.
  assert (0 <= (1 - t) * a <= (1 - t) * l) by (split; [apply Rmult_le_pos; lra|apply Rmult_le_compat_l; lra]). assert (0 < t * l) by (apply Rmult_lt_0_compat; lra).
  assert (- ((1 - t) * r) <= (1 - t) * c <= (1 - t) * r) by (apply mix_range; lra). assert (0 < t * r) by (apply Rmult_lt_0_compat; lra).
  split; [split; lra|]. apply Rabs_def1; lra.
Qed.

(** ** Every point that is drawn is near the path *)
Lemma off_dist y w k : unit w -> dist (off y w k) y = Rabs k.
Proof. intro U. apply dist_eq; [apply Rabs_pos|]. rewrite <- Rabs_mult, Rabs_pos_eq by (apply Rle_0_sqr). unfold dist2, off. cbn [fst snd]. unfold unit in U. transitivity (k * k * (fst w * fst w + snd w * snd w)); [ring|rewrite U; ring]. Qed.
Lemma mids_reach to_int j r y u v a : unit u -> unit v -> In a (mids to_int j r y u v) -> dist a y <= join_reach r j.
Proof.
  intros Uu Uv. pose proof (reach_ge r j) as G. pose proof (reach_pos r j) as G0. unfold mids. destruct j as [|an|an]; [intros []| |].
  - destruct (Rltb _ _); [intros []|]. destruct (pt_eqb _ _); [intros []|].
    assert (D : forall w k, unit w -> dist2 (off (off y (normal_of w) r) w k) y = r * r + k * k /\ dist2 (off (off y (normal_of w) r) (neg w) k) y = r * r + k * k).
    { intros w k U. unfold unit in U. unfold dist2, off, normal_of, neg. cbn [fst snd]. split; (transitivity ((r * r + k * k) * (fst w * fst w + snd w * snd w)); [ring|rewrite U; ring]). }
    destruct (Rltb _ (- cos _)) eqn:Lim.
    + pose proof (miter_len an r _ eq_refl) as L. intros [<-|[<-|[]]]; (apply dist_le; auto); rewrite <- L; right; apply D; auto.
    + apply Rltb_false in Lim. pose proof (limit_gt an) as Lg. pose proof (dot_range u v Uu Uv) as Dr. intros [<-|[]]. apply dist_le; auto. apply (miter_sharp an r (dot u v)); auto.
      destruct (D u (r * Rabs (cross u v) / (1 + dot u v)) Uu) as [-> _].
      assert (Sq : Rabs (cross u v) * Rabs (cross u v) = 1 - dot u v * dot u v).
      { rewrite <- Rabs_mult, Rabs_pos_eq by apply Rle_0_sqr. unfold unit in Uu, Uv. transitivity ((fst u * fst u + snd u * snd u) * (fst v * fst v + snd v * snd v) - dot u v * dot u v); [unfold cross, dot; ring|rewrite Uu, Uv; ring]. }
      transitivity (r * r * (1 + dot u v) + r * r * (Rabs (cross u v) * Rabs (cross u v)) / (1 + dot u v)); [field; lra|]. rewrite Sq. field. lra.
  - destruct (Rltb _ _); [intros []|]. intro I. apply in_map_iff in I as (i & <- & _). rewrite off_dist by (apply rotv_unit, unit_normal; auto). exact G.
Qed.
Section Reach.
  Variables (to_int : rpt -> pt) (j : line_join RF) (r : R).
  Hypothesis Pr : 0 < r.
  Lemma side_reach e v : fst e <> snd e -> In v [la r e; lb r e; ra r e; rb r e] -> exists y, (y = fst e \/ y = snd e) /\ dist v y <= join_reach r j.
  Proof.
    intros N. pose proof (dir_unit _ _ N) as U. pose proof (reach_ge r j) as G. intros [<-|[<-|[<-|[<-|[]]]]]; [exists (fst e)|exists (snd e)|exists (fst e)|exists (snd e)]; (split; [auto|]); unfold la, lb, ra, rb; rewrite off_dist; auto using unit_neg, unit_normal.
  Qed.
  Lemma corner_reach e f v : fst e <> snd e -> fst f <> snd f -> snd e = fst f -> In v (ltop to_int j r e f) \/ In v (lbot to_int j r e f) -> dist v (snd e) <= join_reach r j.
  Proof.
    intros N N' Ch. pose proof (dir_unit _ _ N) as U. pose proof (dir_unit _ _ N') as V. fold (dir_of e) (dir_of f) in *. pose proof (reach_ge r j) as G. unfold ltop, lbot, left_mids, right_mids.
    assert (La : la r f = off (snd e) (normal_of (dir_of f)) r) by (unfold la, dir_of; rewrite Ch; reflexivity). assert (Ra : ra r f = off (snd e) (neg (normal_of (dir_of f))) r) by (unfold ra, dir_of; rewrite Ch; reflexivity).
    rewrite La, Ra. unfold lb, rb. fold (dir_of e).
    assert (K : forall w, unit w -> dist (off (snd e) w r) (snd e) <= join_reach r j) by (intros w Uw; rewrite off_dist; auto).
    intros [[<-|I]|[<-|I]]; [apply K; auto using unit_normal| |apply K; auto using unit_normal, unit_neg|]; (apply in_app_or in I as [I|[<-|[]]]; [|apply K; auto using unit_normal, unit_neg]); destruct (Rltb _ _); try destruct I; (eapply mids_reach; [| |exact I]; auto using unit_neg).
  Qed.
  Lemma cap_pt_dist d y p : unit d -> dist (cap_pt d y p) y = size p.
  Proof.
    intro U. unfold unit in U. unfold size, dist. f_equal. unfold dist2, cap_pt. cbn [fst snd]. transitivity ((fst p * fst p + snd p * snd p) * (fst d * fst d + snd d * snd d)); [ring|rewrite U; ring].
  Qed.
  Lemma frame_size c p : In p (cap_frame c r) -> size p <= cap_reach r c.
  Proof.
    pose proof (cap_reach_ge r c ltac:(lra)) as G. assert (E : size (0, - r) <= cap_reach r c /\ size (0, r) <= cap_reach r c).
    { split; (apply Rle_trans with r; auto); apply dist_le; try lra; unfold dist2; cbn [fst snd]; right; ring. }
    unfold cap_frame. intros [<-|I]; [apply E|]. apply in_app_or in I as [I|[<-|[]]]; [|apply E]. apply cap_points_size; auto; lra.
  Qed.
End Reach.

(** a triangle with its corners in a disc around one of them lies in the disc *)
Lemma tri_disc p y a b k : in_tri p y a b -> dist2 a y <= k -> dist2 b y <= k -> dist2 p y <= k.
Proof.
  intros (T & A & B & C) Da Db. set (t := turn3 y a b) in *. set (be := turn3 y a p) in *. set (al := turn3 b y p) in *.
  assert (S : be + turn3 a b p + al = t) by (unfold be, al, t, turn3; ring).
  assert (E : t * t * dist2 p y = al * al * dist2 a y + be * be * dist2 b y + 2 * (al * be) * ((fst a - fst y) * (fst b - fst y) + (snd a - snd y) * (snd b - snd y))) by (unfold t, al, be, dist2, turn3; ring).
  assert (M : (fst a - fst y) * (fst b - fst y) + (snd a - snd y) * (snd b - snd y) <= k).
  { pose proof (Rle_0_sqr ((fst a - fst y) - (fst b - fst y))) as Q1. pose proof (Rle_0_sqr ((snd a - snd y) - (snd b - snd y))) as Q2. unfold Rsqr, dist2 in *. lra. }
  assert (K : 0 <= k) by (pose proof (dist2_nonneg a y); lra).
  assert (H1 : al * al * dist2 a y <= al * al * k) by (apply Rmult_le_compat_l; [apply Rle_0_sqr|auto]).
  assert (H2 : be * be * dist2 b y <= be * be * k) by (apply Rmult_le_compat_l; [apply Rle_0_sqr|auto]).
  assert (H3 : 2 * (al * be) * ((fst a - fst y) * (fst b - fst y) + (snd a - snd y) * (snd b - snd y)) <= 2 * (al * be) * k) by (apply Rmult_le_compat_l; [apply Rmult_le_pos; [lra|apply Rmult_le_pos; auto]|auto]).
  assert (H4 : (al + be) * (al + be) * k <= t * t * k) by (apply Rmult_le_compat_r; [auto|]; apply Rmult_le_compat; lra).
  apply (Rmult_le_reg_l (t * t)); [apply Rmult_lt_0_compat; auto|]. rewrite E. lra.
Qed.
Lemma dist2_open p v k : k < dist2 p v -> exists d, 0 < d /\ forall p', rclose d p' p -> k < dist2 p' v.
Proof.
  intro H. set (m := 1 + Rabs (fst p - fst v) + Rabs (snd p - snd v)). pose proof (Rabs_pos (fst p - fst v)) as A. pose proof (Rabs_pos (snd p - snd v)) as B.
  set (g := dist2 p v - k) in *. exists (g / (4 * m)). assert (M : 1 <= m) by (unfold m; lra). assert (0 < g) by (unfold g; lra). assert (D : 0 < g / (4 * m)) by (apply Rdiv_lt_0_compat; lra). split; auto.
  intros p' [C1 C2]. set (d := g / (4 * m)) in *. assert (Q : 4 * (d * m) = g) by (unfold d; field; lra).
  assert (X : forall x dx, Rabs dx <= d -> - (d * Rabs x) <= x * dx).
  { intros x dx L. assert (Rabs (x * dx) <= d * Rabs x) by (rewrite Rabs_mult, Rmult_comm; apply Rmult_le_compat_r; auto using Rabs_pos). pose proof (Rle_abs (- (x * dx))). rewrite Rabs_Ropp in *. lra. }
  pose proof (X (fst p - fst v) (fst p' - fst p) C1) as X1. pose proof (X (snd p - snd v) (snd p' - snd p) C2) as X2.
  assert (E : dist2 p' v = dist2 p v + 2 * ((fst p - fst v) * (fst p' - fst p)) + 2 * ((snd p - snd v) * (snd p' - snd p)) + (Rsqr (fst p' - fst p) + Rsqr (snd p' - snd p))) by (unfold dist2, Rsqr; ring).
  pose proof (Rle_0_sqr (fst p' - fst p)). pose proof (Rle_0_sqr (snd p' - snd p)).
  assert (d * m = d + d * Rabs (fst p - fst v) + d * Rabs (snd p - snd v)) by (unfold m; ring). assert (dist2 p v = g + k) by (unfold g; ring). lra.
Qed.
Lemma dist_gt p v k : 0 <= k -> k < dist p v -> k * k < dist2 p v.
Proof. intros K H. destruct (Rlt_or_le (k * k) (dist2 p v)) as [L|L]; auto. pose proof (dist_le p v k K L). lra. Qed.

(** ** What is covered *)
(** [p] lies in a triangle of the fan that joins the chain [l] to [y] *)
Definition in_fan (p y : rpt) (l : list rpt) : Prop := exists a b, In (a, b) (steps l) /\ (in_tri p y a b \/ in_tri p y b a).
Definition in_fan_open (p y : rpt) (l : list rpt) : Prop := exists a b, In (a, b) (steps l) /\ (in_tri_open p y a b \/ in_tri_open p y b a).
Lemma turn3_flip a b c : turn3 a c b = - turn3 a b c.
Proof. unfold turn3. ring. Qed.
Lemma fan_strict p y l : fan y l -> in_fan_open p y l -> (0 < tris p y l)%Z.
Proof. intros F (a & b & I & [T|T]); [|eapply tris_open; eauto]. exfalso. specialize (F a b I). rewrite turn3_flip in F. destruct T. lra. Qed.
Lemma cfan_strict p y l : cfan y l -> in_fan_open p y l -> (0 < ctris p y l)%Z.
Proof. intros F (a & b & I & [T|T]); [eapply ctris_open; eauto|]. exfalso. specialize (F a b I). rewrite turn3_flip in F. destruct T. lra. Qed.
Lemma fan_push p y l d : 0 < d -> in_fan p y l -> exists p', rclose d p' p /\ in_fan_open p' y l.
Proof. intros D (a & b & I & [T|T]); destruct (tri_push _ _ _ _ d D T) as (p' & C & T'); exists p'; (split; [auto|]); exists a, b; auto. Qed.

Section Cover.
  Variables (to_int : rpt -> pt) (style : stroke_style RF).
  Notation r := (stroke_radius style).
  Notation j := (st_join RF style).
  Notation c0 := (st_start RF style).
  Notation c1 := (st_end RF style).
  Definition sides_cover (next : rside -> rside -> Prop) (sides : list rside) (p : rpt) : Prop :=
    (exists e, In e sides /\ in_strip r p e) \/ (exists e f, next e f /\ in_fan p (snd e) (outer to_int j r e f)).
  Definition caps_cover (sides : list rside) (p : rpt) : Prop :=
    (exists e l, sides = e :: l /\ in_fan p (fst e) (cap_start c0 r e)) \/ (exists e l, sides = l ++ [e] /\ in_fan p (snd e) (cap_end c1 r e)).
  Definition sides_cover_open (next : rside -> rside -> Prop) (sides : list rside) (p : rpt) : Prop :=
    (exists e, In e sides /\ in_strip_open r p e) \/ (exists e f, next e f /\ in_fan_open p (snd e) (outer to_int j r e f)).
  Definition caps_cover_open (sides : list rside) (p : rpt) : Prop :=
    (exists e l, sides = e :: l /\ in_fan_open p (fst e) (cap_start c0 r e)) \/ (exists e l, sides = l ++ [e] /\ in_fan_open p (snd e) (cap_end c1 r e)).
  Definition long_enough (next : rside -> rside -> Prop) : Prop := forall e f, next e f -> r * Rabs (turning e f) <= dist (fst e) (snd e) /\ r * Rabs (turning e f) <= dist (fst f) (snd f).
  Hypothesis Pr : 0 < r.

  Section Counting.
    Variables (p : rpt) (e : rside) (rest : list rside).
    Notation sides := (e :: rest).
    Hypothesis N : forall f, In f sides -> fst f <> snd f.
    Notation O := (fun f g => tris p (snd f) (outer to_int j r f g)).
    Notation I := (fun f g => inner r p f g).
    Lemma rect_range f : In f sides -> (0 <= rect_wind r p f <= 1)%Z.
    Proof. intro H. destruct (rect_wind_cases r f Pr (N f H) p) as [[-> _]|[-> _]]; lia. Qed.
    Lemma corner_range (next : rside -> rside -> Prop) f g : (forall f g, next f g -> In f sides /\ In g sides /\ snd f = fst g) -> long_enough next -> next f g ->
      (0 <= O f g /\ 0 <= I f g /\ I f g <= rect_wind r p f /\ I f g <= rect_wind r p g)%Z /\ fan (snd f) (outer to_int j r f g).
    Proof.
      intros Ch Lo H. destruct (Ch f g H) as (If & Ig & E). destruct (Lo f g H) as [L1 L2].
      assert (Fo : fan (snd f) (outer to_int j r f g)) by (apply fan_outer; auto). split; auto.
      split; [apply tris_nonneg; auto|]. split; [apply inner_nonneg; auto|]. apply inner_rects; auto.
    Qed.
    Lemma open_total : (forall f g, followed sides f g -> snd f = fst g) -> long_enough (followed sides) -> cap_left c0 -> cap_left c1 ->
      let t := (ctris p (fst e) (cap_start c0 r e) + stripz (rect_wind r p) (fun f g => O f g - I f g)%Z e rest + ctris p (snd (last rest e)) (cap_end c1 r (last rest e)))%Z in
      (0 <= t)%Z /\ ((0 < t)%Z -> sides_cover (followed sides) sides p \/ caps_cover sides p) /\ (sides_cover_open (followed sides) sides p \/ caps_cover_open sides p -> (0 < t)%Z).
    Proof.
      intros Ch Lo L0 L1 t.
      assert (Nx : forall f g, followed sides f g -> In f sides /\ In g sides /\ snd f = fst g) by (intros f g H; destruct (followed_in _ _ _ H); auto).
      destruct (strip_count (rect_wind r p) O I rest e) as (T1 & _ & T3 & T4); [apply rect_range|intros f g H; apply (corner_range (followed sides)); auto|].
      assert (E1 : sides = removelast sides ++ [last rest e]) by (rewrite (app_removelast_last e) at 1 by discriminate; rewrite last_cons; reflexivity).
      assert (Ue : unit (dir_of e)) by (apply dir_unit, N; simpl; auto). assert (Ul : unit (dir_of (last rest e))) by (apply dir_unit, N, last_in).
      assert (F0 : cfan (fst e) (cap_start c0 r e)) by (apply cap_fan; auto using unit_neg; lra). assert (F1 : cfan (snd (last rest e)) (cap_end c1 r (last rest e))) by (apply cap_fan; auto; lra).
      pose proof (ctris_nonneg p _ _ F0) as P0. pose proof (ctris_nonneg p _ _ F1) as P1. pose proof (rect_range e ltac:(simpl; auto)) as Re.
      split; [unfold t; lia|]. split.
      - intro H. destruct (Z_lt_le_dec 0 (ctris p (fst e) (cap_start c0 r e))) as [Q|Q0].
        { right. left. exists e, rest. split; auto. destruct (ctris_in _ _ _ F0 Q) as (a & b & J & T). exists a, b. auto. }
        destruct (Z_lt_le_dec 0 (ctris p (snd (last rest e)) (cap_end c1 r (last rest e)))) as [Q|Q1].
        { right. right. exists (last rest e), (removelast sides). split; auto. destruct (ctris_in _ _ _ F1 Q) as (a & b & J & T). exists a, b. auto. }
        left. destruct (strip_only (rect_wind r p) O I rest e) as [(f & Hf & Q)|(f & g & Fg & Q)].
        + intros f g Fg. apply (corner_range (followed sides)); auto.
        + unfold t in H. lia.
        + left. exists f. split; auto. apply rect_in; auto.
        + right. exists f, g. split; auto. destruct (corner_range (followed sides) f g Nx Lo Fg) as [_ Fo]. destruct (tris_in _ _ _ Fo Q) as (a & b & J & T). exists a, b. auto.
      - intros [[(f & Hf & Q)|(f & g & Fg & Q)]|[(f & l & El & Q)|(f & l & El & Q)]]; unfold t.
        + specialize (T3 f Hf). rewrite (rect_open r f Pr (N f Hf) p Q) in T3. lia.
        + specialize (T4 f g Fg). destruct (corner_range (followed sides) f g Nx Lo Fg) as [_ Fo]. pose proof (fan_strict _ _ _ Fo Q). cbv beta in T4. lia.
        + injection El as <- <-. pose proof (cfan_strict _ _ _ F0 Q). lia.
        + rewrite E1 in El. apply app_inj_tail in El as [_ <-]. pose proof (cfan_strict _ _ _ F1 Q). lia.
    Qed.
    (** a closed path, at a point that is not inside every bend *)
    Lemma ring_total : (forall f g, followed_ring sides f g -> snd f = fst g) -> long_enough (followed_ring sides) ->
      (exists f g, followed_ring sides f g /\ ~ in_tri p (snd f) (lb r f) (la r g) /\ ~ in_tri p (snd f) (ra r g) (rb r f)) ->
      let t := (stripz (rect_wind r p) (fun f g => O f g - I f g) e rest + (O (last rest e) e - I (last rest e) e))%Z in
      (0 <= t)%Z /\ ((0 < t)%Z -> sides_cover (followed_ring sides) sides p) /\ (sides_cover_open (followed_ring sides) sides p -> (0 < t)%Z).
    Proof.
      intros Ch Lo (f0 & g0 & F0 & Ni1 & Ni2) t.
      assert (Nx : forall f g, followed_ring sides f g -> In f sides /\ In g sides /\ snd f = fst g).
      { intros f g H. assert (In f sides /\ In g sides) as [? ?]; [|auto]. destruct H as [H|(l & El & ->)]; [apply followed_in; auto|]. injection El as <- <-. split; [apply last_in|simpl; auto]. }
      assert (Cr : forall f g, followed_ring sides f g -> (0 <= O f g /\ 0 <= I f g /\ I f g <= rect_wind r p f /\ I f g <= rect_wind r p g)%Z) by (intros f g H; apply (corner_range (followed_ring sides)); auto).
      assert (I0 : I f0 g0 = 0%Z).
      { destruct (Nx f0 g0 F0) as (A & B & E). pose proof (inner_nonneg r f0 g0 Pr E p) as Z. destruct (Z_lt_le_dec 0 (inner r p f0 g0)) as [Q|Q]; [|lia]. exfalso. pose proof (inner_turn r f0 g0 Pr E) as T. unfold inner in Q. destruct (Rltb 0 _); [apply Ni1|apply Ni2]; apply tri_in; auto. }
      destruct (ring_count (rect_wind r p) O I e rest rect_range Cr (ex_intro _ f0 (ex_intro _ g0 (conj F0 I0)))) as (T1 & T2). fold t in T1, T2. pose proof (rect_range e ltac:(simpl; auto)) as Re. pose proof (T1 e ltac:(simpl; auto)).
      split; [lia|]. split.
      - intro H0. destruct (ring_only (rect_wind r p) O I e rest) as [(f & Hf & Q)|(f & g & Fg & Q)]; [intros; apply Cr; auto|exact H0| |].
        + left. exists f. split; auto. apply rect_in; auto.
        + right. exists f, g. split; auto. destruct (corner_range (followed_ring sides) f g Nx Lo Fg) as [_ Fo]. destruct (tris_in _ _ _ Fo Q) as (a & b & J & T). exists a, b. auto.
      - intros [(f & Hf & Q)|(f & g & Fg & Q)].
        + specialize (T1 f Hf). rewrite (rect_open r f Pr (N f Hf) p Q) in T1. lia.
        + apply (T2 f g Fg). destruct (corner_range (followed_ring sides) f g Nx Lo Fg) as [_ Fo]. apply fan_strict; auto.
    Qed.
    (** what is drawn winds around points of the pieces only, however short the sides *)
    Lemma corner_only (next : rside -> rside -> Prop) f g : (forall f g, next f g -> In f sides /\ In g sides /\ snd f = fst g) -> next f g -> (0 <= I f g)%Z /\ fan (snd f) (outer to_int j r f g).
    Proof. intros Ch H. destruct (Ch f g H) as (If & Ig & E). split; [apply inner_nonneg; auto|apply fan_outer; auto]. Qed.
    Lemma open_some : (forall f g, followed sides f g -> snd f = fst g) -> cap_left c0 -> cap_left c1 ->
      (0 < ctris p (fst e) (cap_start c0 r e) + stripz (rect_wind r p) (fun f g => O f g - I f g)%Z e rest + ctris p (snd (last rest e)) (cap_end c1 r (last rest e)))%Z ->
      sides_cover (followed sides) sides p \/ caps_cover sides p.
    Proof.
      intros Ch L0 L1 H.
      assert (Nx : forall f g, followed sides f g -> In f sides /\ In g sides /\ snd f = fst g) by (intros f g X; destruct (followed_in _ _ _ X); auto).
      assert (E1 : sides = removelast sides ++ [last rest e]) by (rewrite (app_removelast_last e) at 1 by discriminate; rewrite last_cons; reflexivity).
      assert (Ue : unit (dir_of e)) by (apply dir_unit, N; simpl; auto). assert (Ul : unit (dir_of (last rest e))) by (apply dir_unit, N, last_in).
      assert (F0 : cfan (fst e) (cap_start c0 r e)) by (apply cap_fan; auto using unit_neg; lra). assert (F1 : cfan (snd (last rest e)) (cap_end c1 r (last rest e))) by (apply cap_fan; auto; lra).
      destruct (Z_lt_le_dec 0 (ctris p (fst e) (cap_start c0 r e))) as [Q|Q0].
      { right. left. exists e, rest. split; auto. destruct (ctris_in _ _ _ F0 Q) as (a & b & J & T). exists a, b. auto. }
      destruct (Z_lt_le_dec 0 (ctris p (snd (last rest e)) (cap_end c1 r (last rest e)))) as [Q|Q1].
      { right. right. exists (last rest e), (removelast sides). split; auto. destruct (ctris_in _ _ _ F1 Q) as (a & b & J & T). exists a, b. auto. }
      left. destruct (strip_only (rect_wind r p) O I rest e) as [(f & Hf & Q)|(f & g & Fg & Q)].
      + intros f g Fg. apply (corner_only (followed sides)); auto.
      + lia.
      + left. exists f. split; auto. apply rect_in; auto.
      + right. exists f, g. split; auto. destruct (corner_only (followed sides) f g Nx Fg) as [_ Fo]. destruct (tris_in _ _ _ Fo Q) as (a & b & J & T). exists a, b. auto.
    Qed.
    Lemma ring_some : (forall f g, followed_ring sides f g -> snd f = fst g) ->
      (0 < stripz (rect_wind r p) (fun f g => O f g - I f g) e rest + (O (last rest e) e - I (last rest e) e))%Z -> sides_cover (followed_ring sides) sides p.
    Proof.
      intros Ch H0.
      assert (Nx : forall f g, followed_ring sides f g -> In f sides /\ In g sides /\ snd f = fst g).
      { intros f g H. assert (In f sides /\ In g sides) as [? ?]; [|auto]. destruct H as [H|(l & El & ->)]; [apply followed_in; auto|]. injection El as <- <-. split; [apply last_in|simpl; auto]. }
      destruct (ring_only (rect_wind r p) O I e rest) as [(f & Hf & Q)|(f & g & Fg & Q)]; [intros f g Fg; apply (corner_only (followed_ring sides)); auto|exact H0| |].
      + left. exists f. split; auto. apply rect_in; auto.
      + right. exists f, g. split; auto. destruct (corner_only (followed_ring sides) f g Nx Fg) as [_ Fo]. destruct (tris_in _ _ _ Fo Q) as (a & b & J & T). exists a, b. auto.
    Qed.
  End Counting.

  (** ** Paths *)
  Variables (s : R) (o : rpt) (q : qpt) (p : rpt).
  Hypothesis Ps : 0 < s.
  Hypothesis Pq : rplace s o p = rq q.
  (** the conversion to the grid is off by at most one unit near the path *)
  Definition snaps (path : list rpt) : Prop := forall a v, In v path -> dist a v <= stroke_reach style -> rclose 1 (rplace s o a) (rz (to_int a)).
  Lemma snap_ok path o' a v : snaps path -> rclose 1 (rplace s o' a) (rplace s o a) -> In v path -> dist a v <= stroke_reach style -> ok to_int s o' a.
  Proof.
    intros Sn [A B] I D. destruct (Sn a v I D) as [A' B']. apply Rabs_iff in A, B, A', B'. split; apply Rabs_iff; lra.
  Qed.
  Lemma shift_close o' p' : rplace s o' p' = rq q -> rclose (1 / s) p' p -> forall a, rclose 1 (rplace s o' a) (rplace s o a).
  Proof.
    intros E [A B] a. apply Rabs_iff in A, B. rewrite <- Pq in E. unfold rplace in *. injection E as E1 E2. cbn [fst snd].
    assert (K : forall x, - (1 / s) <= x <= 1 / s -> - 1 <= s * x <= 1).
    { intros x [X1 X2]. assert (Q : s * (1 / s) = 1) by (field; lra). split; [replace (-1) with (s * - (1 / s)) by lra|rewrite <- Q]; apply Rmult_le_compat_l; lra. }
    apply K in A, B. split; apply Rabs_iff; cbn [fst snd]; lra.
  Qed.
  Lemma origin p' : exists o', rplace s o' p' = rq q.
  Proof.
    exists (fst p' - fst (rq q) / s, snd p' - snd (rq q) / s). unfold rplace. cbn [fst snd]. destruct (rq q) as [a b]. cbn [fst snd]. f_equal; field; lra.
  Qed.
  Notation sec := (fun e : rside => section_new RF r (fst e) (snd e)).
  Notation joinf := (stroke_join RF to_int r (join_normalize RF j)).
  Notation drawn e rest := (add_to_start RF to_int (cap_points RF (cap_normalize RF c0) r) (sec e) ++ strip RF sec (add_section RF to_int) joinf e rest ++ add_to_end RF to_int (cap_points RF (cap_normalize RF c1) r) (sec (last rest e))).
  Section Sides.
    Variables (path : list rpt) (e : rside) (rest : list rside).
    Notation sides := (e :: rest).
    Hypothesis N : forall f, In f sides -> fst f <> snd f.
    Hypothesis Ip : forall f, In f sides -> In (fst f) path /\ In (snd f) path.
    Hypothesis Sn : snaps path.
    Section At.
      Variables (o' p' : rpt).
      Hypothesis Pq' : rplace s o' p' = rq q.
      Hypothesis Cl : rclose (1 / s) p' p.
      Notation ok := (ok to_int s o').
      Lemma Rj : join_reach r j <= stroke_reach style.
      Proof. apply Rmax_l. Qed.
      Lemma ok_side f : In f sides -> ok (la r f) /\ ok (lb r f) /\ ok (ra r f) /\ ok (rb r f).
      Proof.
        intro H. destruct (Ip f H) as [I1 I2]. pose proof Rj as L.
        assert (K : forall v, In v [la r f; lb r f; ra r f; rb r f] -> ok v).
        { intros v Iv. destruct (side_reach j r f v (N f H) Iv) as (y & Y & D). apply (snap_ok path o' v y); auto; [apply (shift_close o' p'); auto|destruct Y as [-> | ->]; auto|lra]. }
        repeat split; apply K; simpl; auto.
      Qed.
      Lemma ok_corner f g a : In f sides -> In g sides -> snd f = fst g -> In a (ltop to_int j r f g) \/ In a (lbot to_int j r f g) -> ok a.
      Proof.
        intros If Ig E H. destruct (Ip f If) as [I1 I2]. pose proof Rj as L. apply (snap_ok path o' a (snd f)); auto; [apply (shift_close o' p'); auto|]. eapply Rle_trans; [|exact L]. apply (corner_reach to_int j r f g); auto.
      Qed.
      Lemma ok_cap0 a : In a (cap_start c0 r e) -> ok a.
      Proof.
        intro H. destruct (Ip e ltac:(simpl; auto)) as [I1 I2]. apply in_map_iff in H as (x & <- & H). apply (snap_ok path o' _ (fst e)); auto; [apply (shift_close o' p'); auto|]. rewrite cap_pt_dist by (apply unit_neg, dir_unit, N; simpl; auto).
        eapply Rle_trans; [apply (frame_size r Pr _ _ H)|]. unfold stroke_reach. eapply Rle_trans; [|apply Rmax_r]. apply Rmax_l.
      Qed.
      Lemma ok_cap1 a : In a (cap_end c1 r (last rest e)) -> ok a.
      Proof.
        intro H. destruct (Ip (last rest e) (last_in _ _)) as [I1 I2]. apply in_map_iff in H as (x & <- & H). apply (snap_ok path o' _ (snd (last rest e))); auto; [apply (shift_close o' p'); auto|]. rewrite cap_pt_dist by (apply dir_unit, N, last_in).
        eapply Rle_trans; [apply (frame_size r Pr _ _ H)|]. unfold stroke_reach. eapply Rle_trans; [|apply Rmax_r]. apply Rmax_r.
      Qed.
      Notation O := (fun f g => tris p' (snd f) (outer to_int j r f g)).
      Notation I := (fun f g => inner r p' f g).
      Lemma drawn_count : (forall f g, followed sides f g -> snd f = fst g) -> far_segs q (drawn e rest) ->
        segs_wind q (drawn e rest) = (ctris p' (fst e) (cap_start c0 r e) + stripz (rect_wind r p') (fun f g => O f g - I f g)%Z e rest + ctris p' (snd (last rest e)) (cap_end c1 r (last rest e)))%Z.
      Proof.
        intros Ch F.
        assert (F1 : far_segs q (add_to_start RF to_int (cap_points RF (cap_normalize RF c0) r) (sec e))) by (intros x Ix; apply F; apply in_or_app; auto).
        assert (F2 : far_segs q (strip RF sec (add_section RF to_int) joinf e rest)) by (intros x Ix; apply F; apply in_or_app; right; apply in_or_app; auto).
        assert (F3 : far_segs q (add_to_end RF to_int (cap_points RF (cap_normalize RF c1) r) (sec (last rest e)))) by (intros x Ix; apply F; apply in_or_app; right; apply in_or_app; auto).
        destruct (strip_clear to_int j r q rest e N Ch F2) as [C1 _].
        rewrite !segs_wind_app.
        rewrite (start_real to_int r q s o' p' Ps Pq' e c0); [|apply C1; simpl; auto|auto|intros; apply ok_cap0; auto].
        rewrite (strip_real to_int j r q s o' p' Ps Pq' e rest N Ch F2); [|apply ok_side|intros f g Fg a Ia; destruct (followed_in _ _ _ Fg); apply (ok_corner f g); auto].
        rewrite (end_real to_int r q s o' p' Ps Pq' (last rest e) c1); [|apply C1, last_in|auto|intros; apply ok_cap1; auto]. lia.
      Qed.
      Lemma ring_drawn : (forall f g, followed_ring sides f g -> snd f = fst g) -> far_segs q (MeshStrip.ring RF sec (add_section RF to_int) joinf sides) ->
        segs_wind q (MeshStrip.ring RF sec (add_section RF to_int) joinf sides) = (stripz (rect_wind r p') (fun f g => O f g - I f g) e rest + (O (last rest e) e - I (last rest e) e))%Z.
      Proof.
        intros Ch F. unfold MeshStrip.ring in *.
        assert (F2 : far_segs q (strip RF sec (add_section RF to_int) joinf e rest)) by (intros x Ix; apply F; apply in_or_app; auto).
        assert (F3 : far_segs q (joinf (sec (last rest e)) (sec e))) by (intros x Ix; apply F; apply in_or_app; auto).
        assert (Fl : followed_ring sides (last rest e) e) by (right; exists rest; auto). pose proof (Ch _ _ Fl) as El.
        assert (Ch' : forall f g, followed sides f g -> snd f = fst g) by (intros f g H; apply Ch; left; auto).
        destruct (strip_clear to_int j r q rest e N Ch' F2) as [C1 _]. rewrite segs_wind_app.
        rewrite (strip_real to_int j r q s o' p' Ps Pq' e rest N Ch' F2); [|apply ok_side|intros f g Fg a Ia; destruct (followed_in _ _ _ Fg); apply (ok_corner f g); auto].
        assert (Il : In (last rest e) sides) by apply last_in. assert (Ie : In e sides) by (simpl; auto).
        pose proof (join_wind to_int j r q (last rest e) e (N _ Il) (N _ Ie) El) as J. cbv beta in J.
        match goal with |- (_ + ?b)%Z = _ => change b with (segs_wind q (joinf (section_new RF r (fst (last rest e)) (snd (last rest e))) (section_new RF r (fst e) (snd e)))) end. rewrite J. rewrite (join_real to_int j r q s o' p' Ps Pq' (last rest e) e); auto.
        - lia.
        - apply join_clear; auto; apply C1; auto.
        - intros a Ia. apply (ok_corner (last rest e) e); auto.
      Qed.
    End At.
    Theorem open_sides : (forall f g, followed sides f g -> snd f = fst g) -> long_enough (followed sides) -> cap_left c0 -> cap_left c1 -> far_segs q (drawn e rest) ->
      (0 <= segs_wind q (drawn e rest))%Z /\ ((0 < segs_wind q (drawn e rest))%Z <-> sides_cover (followed sides) sides p \/ caps_cover sides p).
    Proof.
      intros Ch Lo L0 L1 F. assert (Pd : 0 < 1 / s) by (apply Rdiv_lt_0_compat; lra).
      pose proof (drawn_count o p Pq (rclose_refl (1 / s) p ltac:(lra)) Ch F) as E. destruct (open_total p e rest N Ch Lo L0 L1) as (T1 & T2 & _). cbv zeta in T1, T2. rewrite <- E in T1, T2. split; auto. split; auto.
      assert (K : forall p', rclose (1 / s) p' p -> sides_cover_open (followed sides) sides p' \/ caps_cover_open sides p' -> (0 < segs_wind q (drawn e rest))%Z).
      { intros p' Cl C. destruct (origin p') as (o' & Pq'). rewrite (drawn_count o' p' Pq' Cl Ch F). apply (open_total p' e rest N Ch Lo L0 L1). exact C. }
      intros [[(f & Hf & H)|(f & g & Fg & H)]|[(f & l & El & H)|(f & l & El & H)]].
      - destruct (strip_push r p f (1 / s) Pr (N f Hf) Pd H) as (p' & C & H'). apply (K p' C). left. left. exists f. auto.
      - destruct (fan_push p _ _ (1 / s) Pd H) as (p' & C & H'). apply (K p' C). left. right. exists f, g. auto.
      - destruct (fan_push p _ _ (1 / s) Pd H) as (p' & C & H'). apply (K p' C). right. left. exists f, l. auto.
      - destruct (fan_push p _ _ (1 / s) Pd H) as (p' & C & H'). apply (K p' C). right. right. exists f, l. auto.
    Qed.
    Theorem closed_sides : (forall f g, followed_ring sides f g -> snd f = fst g) -> long_enough (followed_ring sides) ->
      (exists f, In f sides /\ r < dist p (snd f)) -> far_segs q (MeshStrip.ring RF sec (add_section RF to_int) joinf sides) ->
      (0 <= segs_wind q (MeshStrip.ring RF sec (add_section RF to_int) joinf sides))%Z /\
      ((0 < segs_wind q (MeshStrip.ring RF sec (add_section RF to_int) joinf sides))%Z <-> sides_cover (followed_ring sides) sides p).
    Proof.
      intros Ch Lo (f0 & F0 & Far) F. apply dist_gt in Far; [|lra]. destruct (dist2_open _ _ _ Far) as (d0 & Pd0 & Far').
      set (d := Rmin d0 (1 / s)). assert (Pd1 : 0 < 1 / s) by (apply Rdiv_lt_0_compat; lra). assert (Pd : 0 < d) by (apply Rmin_pos; auto). assert (D0 : d <= d0) by apply Rmin_l. assert (D1 : d <= 1 / s) by apply Rmin_r.
      assert (Nx : exists g, followed_ring sides f0 g).
      { apply in_split in F0 as (l & m & E). destruct m as [|g m]; [exists e; right; exists rest; split; auto; rewrite <- (last_cons rest e e), E, last_last; reflexivity|exists g; left; exists l, m; auto]. }
      destruct Nx as (g0 & Fg0).
      assert (Out : forall p', rclose d p' p -> exists f g, followed_ring sides f g /\ ~ in_tri p' (snd f) (lb r f) (la r g) /\ ~ in_tri p' (snd f) (ra r g) (rb r f)).
      { intros p' [C1 C2]. exists f0, g0. split; auto. specialize (Far' p' (conj (Rle_trans _ _ _ C1 D0) (Rle_trans _ _ _ C2 D0))). pose proof (Ch _ _ Fg0) as E.
        assert (Ig : In g0 sides) by (destruct Fg0 as [H|(l & El & H)]; [apply followed_in in H; tauto|injection El as <- <-; simpl; auto]).
        pose proof (dir_unit _ _ (N f0 F0)) as U. pose proof (dir_unit _ _ (N g0 Ig)) as V. assert (Dk : forall w, unit w -> dist2 (off (snd f0) w r) (snd f0) <= r * r) by (intros w Uw; right; unfold dist2, off; cbn [fst snd]; unfold unit in Uw; transitivity (r * r * (fst w * fst w + snd w * snd w)); [ring|rewrite Uw; ring]).
        assert (La : la r g0 = off (snd f0) (normal_of (dir_of g0)) r) by (unfold la, dir_of; rewrite E; reflexivity). assert (Ra : ra r g0 = off (snd f0) (neg (normal_of (dir_of g0))) r) by (unfold ra, dir_of; rewrite E; reflexivity).
        split; intro T; apply (tri_disc _ _ _ _ (r * r)) in T; try lra; rewrite ?La, ?Ra; apply Dk; auto using unit_normal, unit_neg. }
      assert (Wk : forall p', rclose d p' p -> rclose (1 / s) p' p) by (intros p' [C1 C2]; split; eapply Rle_trans; eauto).
      pose proof (ring_drawn o p Pq (rclose_refl (1 / s) p ltac:(lra)) Ch F) as E. destruct (ring_total p e rest N Ch Lo (Out p (rclose_refl d p ltac:(lra)))) as (T1 & T2 & _). cbv zeta in T1, T2. rewrite <- E in T1, T2. split; auto. split; auto.
      assert (K : forall p', rclose d p' p -> sides_cover_open (followed_ring sides) sides p' -> (0 < segs_wind q (MeshStrip.ring RF sec (add_section RF to_int) joinf sides))%Z).
      { intros p' Cl C. destruct (origin p') as (o' & Pq'). rewrite (ring_drawn o' p' Pq' (Wk p' Cl) Ch F). apply (ring_total p' e rest N Ch Lo (Out p' Cl)). exact C. }
      intros [(f & Hf & H)|(f & g & Fg & H)].
      - destruct (strip_push r p f d Pr (N f Hf) Pd H) as (p' & C & H'). apply (K p' C). left. exists f. auto.
      - destruct (fan_push p _ _ d Pd H) as (p' & C & H'). apply (K p' C). right. exists f, g. auto.
    Qed.
    Theorem open_sides_only : (forall f g, followed sides f g -> snd f = fst g) -> cap_left c0 -> cap_left c1 -> far_segs q (drawn e rest) ->
      (0 < segs_wind q (drawn e rest))%Z -> sides_cover (followed sides) sides p \/ caps_cover sides p.
    Proof.
      intros Ch L0 L1 F H. assert (Pd : 0 < 1 / s) by (apply Rdiv_lt_0_compat; lra).
      apply (open_some p e rest N Ch L0 L1). exact (eq_ind _ (fun z => (0 < z)%Z) H _ (drawn_count o p Pq (rclose_refl (1 / s) p ltac:(lra)) Ch F)).
    Qed.
    Theorem closed_sides_only : (forall f g, followed_ring sides f g -> snd f = fst g) -> far_segs q (MeshStrip.ring RF sec (add_section RF to_int) joinf sides) ->
      (0 < segs_wind q (MeshStrip.ring RF sec (add_section RF to_int) joinf sides))%Z -> sides_cover (followed_ring sides) sides p.
    Proof.
      intros Ch F H. assert (Pd : 0 < 1 / s) by (apply Rdiv_lt_0_compat; lra).
      apply (ring_some p e rest N Ch). exact (eq_ind _ (fun z => (0 < z)%Z) H _ (ring_drawn o p Pq (rclose_refl (1 / s) p ltac:(lra)) Ch F)).
    Qed.
  End Sides.
End Cover.
