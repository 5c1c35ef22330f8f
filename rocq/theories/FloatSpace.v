(** * Contours with rational coordinates: winding numbers, distances, the effect of moving vertices. *)
From Verif Require Import Base Spec QLib SplitNear.
From Coq Require Import QArith Lqa Qabs.
Open Scope Z_scope.

(** ** Specification *)
(** the edges of a closed contour, in order *)
Definition ring {A} (path : list A) : list (A * A) := match path with [] => [] | p :: r => combine path (r ++ [p]) end.
(** an edge that passes below [q] counts [1] if it runs from left to right, [-1] from right to left *)
Definition qleft (q p : qpt) : bool := Qle_bool (fst p) (fst q).
Definition qheight (q a b : qpt) : Q := (snd a + (snd b - snd a) / (fst b - fst a) * (fst q - fst a))%Q.
Definition qedge_wind (q : qpt) (e : qpt * qpt) : Z :=
  (bz (qleft q (fst e)) - bz (qleft q (snd e))) * bz (Qltb (qheight q (fst e) (snd e)) (snd q)).
(** how often a contour, several contours run around [q], counter-clockwise *)
Definition qcontour_wind (c : list qpt) (q : qpt) : Z := zsum (qedge_wind q) (ring c).
Definition qcontours_wind (cs : list (list qpt)) (q : qpt) : Z := zsum (fun c => qcontour_wind c q) cs.
(** [q] is at most [d] away, in x and in y, from some point of the segment [a b] *)
Definition qwithin (d : Q) (a b q : qpt) : Prop :=
  exists t, (0 <= t <= 1)%Q /\ (Qabs (fst q - (fst a + t * (fst b - fst a))) <= d)%Q /\ (Qabs (snd q - (snd a + t * (snd b - snd a))) <= d)%Q.
(** [q] is more than [d] away from every edge of the contours *)
Definition far_from (d : Q) (cs : list (list qpt)) (q : qpt) : Prop := forall c e, In c cs -> In e (ring c) -> ~ qwithin d (fst e) (snd e) q.
(** [q] is at most [d] away from some edge of the contours *)
Definition close_to (d : Q) (cs : list (list qpt)) (q : qpt) : Prop := exists c e, In c cs /\ In e (ring c) /\ qwithin d (fst e) (snd e) q.

(** ** Distances *)
Lemma qwithin_mono d d' a b q : (d <= d')%Q -> qwithin d a b q -> qwithin d' a b q.
Proof. intros L (t & T & A & B). exists t. split; auto. split; eapply Qle_trans; eauto. Qed.
Lemma qwithin_convex d a b q q' r u : (0 <= u <= 1)%Q -> qwithin d a b q -> qwithin d a b q' ->
  (fst r == fst q + u * (fst q' - fst q))%Q -> (snd r == snd q + u * (snd q' - snd q))%Q -> qwithin d a b r.
Proof.
  intros U (t & T & A & B) (t' & T' & A' & B') X Y. apply Qabs_le_iff in A, B, A', B'.
  pose proof (mul_range (1 - u) _ _ ltac:(lra) A). pose proof (mul_range (1 - u) _ _ ltac:(lra) B).
  pose proof (mul_range u _ _ ltac:(lra) A'). pose proof (mul_range u _ _ ltac:(lra) B').
  exists (t + u * (t' - t))%Q. split; [|split].
  - pose proof (Qmult_le_0_compat u t'). pose proof (Qmult_le_0_compat (1 - u) t). pose proof (Qmult_le_0_compat u (1 - t')). pose proof (Qmult_le_0_compat (1 - u) (1 - t)). split; lra.
  - apply Qabs_le_iff. rewrite X. split; lra.
  - apply Qabs_le_iff. rewrite Y. split; lra.
Qed.
Definition close (d : Q) (p q : qpt) : Prop := (Qabs (fst p - fst q) <= d)%Q /\ (Qabs (snd p - snd q) <= d)%Q.
Lemma close_sym d p q : close d p q -> close d q p.
Proof. intros [A B]. apply Qabs_le_iff in A, B. split; apply Qabs_le_iff; lra. Qed.
Lemma qwithin_a d a b p : close d p a -> qwithin d a b p.
Proof. intros [A B]. apply Qabs_le_iff in A, B. exists 0%Q. split; [lra|]. split; apply Qabs_le_iff; split; ring_simplify; lra. Qed.
Lemma qwithin_b d a b p : close d p b -> qwithin d a b p.
Proof. intros [A B]. apply Qabs_le_iff in A, B. exists 1%Q. split; [lra|]. split; apply Qabs_le_iff; split; ring_simplify; lra. Qed.
Lemma qwithin_move d e a b a' b' q : close d a' a -> close d b' b -> qwithin e a' b' q -> qwithin (d + e) a b q.
Proof.
  intros Wa Wb (t & T & X & Y). apply Qabs_le_iff in X, Y.
  destruct (qwithin_convex d a b a' b' (fst a' + t * (fst b' - fst a'), snd a' + t * (snd b' - snd a'))%Q t T (qwithin_a d a b a' Wa) (qwithin_b d a b b' Wb)) as (v & V & A & B); cbn [fst snd]; [reflexivity|reflexivity|].
  cbn [fst snd] in A, B. apply Qabs_le_iff in A, B. exists v. split; auto. split; apply Qabs_le_iff; split; lra.
Qed.

(** ** A triangle inside a convex set does not wind around points outside of it *)
Lemma qleft_cases q p : (qleft q p = true /\ (fst p <= fst q)%Q) \/ (qleft q p = false /\ (fst q < fst p)%Q).
Proof. unfold qleft. destruct (Qle_bool (fst p) (fst q)) eqn:E; [left|right]; split; auto; [apply Qle_bool_iff; auto|]. apply Qnot_le_lt. intro H. apply Qle_bool_iff in H. congruence. Qed.
Lemma qheight_within d a b q x y : qleft q x <> qleft q y -> qwithin d a b x -> qwithin d a b y -> qwithin d a b (fst q, qheight q x y).
Proof.
  intros N Wx Wy.
  assert (L : exists u, (0 <= u <= 1 /\ fst q == fst x + u * (fst y - fst x))%Q).
  { exists ((fst q - fst x) / (fst y - fst x))%Q.
    destruct (qleft_cases q x) as [[A A']|[A A']], (qleft_cases q y) as [[B B']|[B B']]; try congruence.
    - split; [split|field; lra]. { apply Qle_shift_div_l; lra. } { apply Qle_shift_div_r; lra. }
    - assert (E : ((fst q - fst x) / (fst y - fst x) == (fst x - fst q) / (fst x - fst y))%Q) by (field; split; lra). rewrite E.
      split; [split|field; lra]. { apply Qle_shift_div_l; lra. } { apply Qle_shift_div_r; lra. } }
  destruct L as (u & U & X). apply (qwithin_convex d a b x y _ u U Wx Wy); cbn [fst snd]; [exact X|].
  unfold qheight. rewrite X. field.
  destruct (qleft_cases q x) as [[A A']|[A A']], (qleft_cases q y) as [[B B']|[B B']]; try congruence; lra.
Qed.
Lemma qconvex_above d a b q h h' : ~ qwithin d a b q -> qwithin d a b (fst q, h) -> qwithin d a b (fst q, h') -> Qltb h (snd q) = Qltb h' (snd q).
Proof.
  assert (K : forall h h', qwithin d a b (fst q, h) -> qwithin d a b (fst q, h') -> (h < snd q)%Q -> (snd q <= h')%Q -> qwithin d a b q).
  { clear h h'. intros h h' W W' L L'. apply (qwithin_convex d a b (fst q, h) (fst q, h') q ((snd q - h) / (h' - h))); auto; cbn [fst snd].
    - split; [apply Qle_shift_div_l; lra|apply Qle_shift_div_r; lra].
    - ring.
    - field. lra. }
  intros N W W'. unfold Qltb.
  destruct (Qle_bool (snd q) h) eqn:E, (Qle_bool (snd q) h') eqn:E'; auto; exfalso; apply N.
  - apply Qle_bool_iff in E. apply (K h' h); auto. apply Qnot_le_lt. intro H. apply Qle_bool_iff in H. congruence.
  - apply Qle_bool_iff in E'. apply (K h h'); auto. apply Qnot_le_lt. intro H. apply Qle_bool_iff in H. congruence.
Qed.
Lemma qtriangle d a b q x y z : ~ qwithin d a b q -> qwithin d a b x -> qwithin d a b y -> qwithin d a b z ->
  qedge_wind q (x, y) + qedge_wind q (y, z) = qedge_wind q (x, z).
Proof.
  intros N Wx Wy Wz. unfold qedge_wind. cbn [fst snd].
  assert (K : forall p r p' r', qwithin d a b p -> qwithin d a b r -> qwithin d a b p' -> qwithin d a b r' ->
    qleft q p <> qleft q r -> qleft q p' <> qleft q r' -> Qltb (qheight q p r) (snd q) = Qltb (qheight q p' r') (snd q)).
  { intros p r p' r' W1 W2 W3 W4 N1 N2. apply (qconvex_above d a b); auto; apply qheight_within; auto. }
  destruct (qleft q x) eqn:A, (qleft q y) eqn:B, (qleft q z) eqn:D; cbn [bz]; try lia;
    first [ rewrite (K x z y z) by (congruence || auto); lia | rewrite (K y z x y) by (congruence || auto); lia | rewrite (K x z x y) by (congruence || auto); lia ].
Qed.

(** ** Moving the vertices of a contour by at most [d] does not change winding numbers more than [d] away from it *)
Lemma quad d q a b a' b' : close d a' a -> close d b' b -> ~ qwithin d a b q -> (0 <= d)%Q ->
  qedge_wind q (a', b') = qedge_wind q (a', a) + qedge_wind q (a, b) - qedge_wind q (b', b).
Proof.
  intros A B N D. assert (R : forall p, close d p p) by (intro p; split; apply Qabs_le_iff; split; ring_simplify; lra).
  pose proof (qtriangle d a b q a' a b N (qwithin_a _ _ _ _ A) (qwithin_a _ _ _ _ (R a)) (qwithin_b _ _ _ _ (R b))).
  pose proof (qtriangle d a b q a' b' b N (qwithin_a _ _ _ _ A) (qwithin_b _ _ _ _ B) (qwithin_b _ _ _ _ (R b))). lia.
Qed.
Lemma chain_move {A} d q (f g : A -> qpt) : (0 <= d)%Q -> forall l a z, (forall p, In p (a :: l ++ [z]) -> close d (f p) (g p)) ->
  (forall e, In e (combine (a :: l) (l ++ [z])) -> ~ qwithin d (g (fst e)) (g (snd e)) q) ->
  zsum (qedge_wind q) (combine (map f (a :: l)) (map f (l ++ [z]))) =
    zsum (qedge_wind q) (combine (map g (a :: l)) (map g (l ++ [z]))) + qedge_wind q (f a, g a) - qedge_wind q (f z, g z).
Proof.
  intro D. induction l as [|b l IH]; intros a z C W.
  - change (qedge_wind q (f a, f z) + 0 = qedge_wind q (g a, g z) + 0 + qedge_wind q (f a, g a) - qedge_wind q (f z, g z)).
    rewrite (quad d q (g a) (g z) (f a) (f z)); auto; [lia| | |].
    + apply C. left; auto. + apply C. right. left. auto. + apply (W (a, z)). left; auto.
  - change (map f (a :: b :: l)) with (f a :: map f (b :: l)). change (map f ((b :: l) ++ [z])) with (f b :: map f (l ++ [z])).
    change (map g (a :: b :: l)) with (g a :: map g (b :: l)). change (map g ((b :: l) ++ [z])) with (g b :: map g (l ++ [z])).
    change (combine (f a :: map f (b :: l)) (f b :: map f (l ++ [z]))) with ((f a, f b) :: combine (map f (b :: l)) (map f (l ++ [z]))).
    change (combine (g a :: map g (b :: l)) (g b :: map g (l ++ [z]))) with ((g a, g b) :: combine (map g (b :: l)) (map g (l ++ [z]))).
    change (combine (a :: b :: l) ((b :: l) ++ [z])) with ((a, b) :: combine (b :: l) (l ++ [z])) in *.
    rewrite !zsum_cons. rewrite IH; [|intros p I; apply C; right; auto|intros e I; apply W; right; auto].
    rewrite (quad d q (g a) (g b) (f a) (f b)); auto; [lia| | |].
    + apply C. left; auto. + apply C. right. left. auto. + apply (W (a, b)). left; auto.
Qed.
Lemma ring_map {A B} (f : A -> B) (c : list A) : ring (map f c) = map (fun e => (f (fst e), f (snd e))) (ring c).
Proof.
  destruct c as [|a l]; auto. unfold ring. cbn [map]. replace (map f l ++ [f a]) with (map f (l ++ [a])) by (rewrite map_app; reflexivity).
  change (f a :: map f l) with (map f (a :: l)). generalize (a :: l) (l ++ [a]). induction l0 as [|x l0 IH]; intros [|y m]; auto. cbn. f_equal. auto.
Qed.
Theorem contour_move {A} d q (f g : A -> qpt) c : (0 <= d)%Q -> (forall p, In p c -> close d (f p) (g p)) ->
  (forall e, In e (ring (map g c)) -> ~ qwithin d (fst e) (snd e) q) -> qcontour_wind (map f c) q = qcontour_wind (map g c) q.
Proof.
  intros D C W. destruct c as [|a l]; auto. unfold qcontour_wind, ring. cbn [map].
  replace (map f l ++ [f a]) with (map f (l ++ [a])) by (rewrite map_app; reflexivity). change (f a :: map f l) with (map f (a :: l)).
  replace (map g l ++ [g a]) with (map g (l ++ [a])) by (rewrite map_app; reflexivity). change (g a :: map g l) with (map g (a :: l)).
  rewrite (chain_move d q f g D l a a); [lia| |].
  - intros p [<-|I]; [apply C; left; auto|]. apply in_app_iff in I as [I|[<-|[]]]; apply C; simpl; auto.
  - intros e I. apply (W (g (fst e), g (snd e))). rewrite ring_map. apply in_map_iff. exists e. auto.
Qed.
