(** * Base: points, lexicographic order, orientation, sorting.

    Models the value types of [/repo/iOverlay/src/geom/*.rs] and the contracts of the
    external crates [i_float] (IntPoint, Triangle, FixVec) and [i_key_sort]
    (sorting), whose sources are not part of /repo. *)
From Coq Require Export List Arith ZArith Lia Bool Permutation Sorted.
From Coq Require Export ZifyBool.
Export ListNotations.
Open Scope Z_scope.

Arguments Z.mul : simpl never.
Arguments Z.add : simpl never.
Arguments Z.sub : simpl never.
Arguments Z.opp : simpl never.

(** ** Points.  [i_float::int::point::IntPoint] (x: i32, y: i32); the order used by
    [a.cmp(&b)] throughout the code is lexicographic, x first. *)
Record pt := Pt { px : Z; py : Z }.

Definition pt_eqb (p q : pt) : bool := (px p =? px q) && (py p =? py q).

Definition pt_ltb (p q : pt) : bool :=
  (px p <? px q) || ((px p =? px q) && (py p <? py q)).

Definition pt_leb (p q : pt) : bool := pt_ltb p q || pt_eqb p q.

Definition pt_cmp (p q : pt) : comparison :=
  if pt_ltb p q then Lt else if pt_eqb p q then Eq else Gt.

Definition pt_lt (p q : pt) : Prop := px p < px q \/ (px p = px q /\ py p < py q).

Lemma pt_eqb_eq p q : pt_eqb p q = true <-> p = q.
Proof.
  unfold pt_eqb. destruct p as [a b], q as [c d]; simpl.
  rewrite andb_true_iff, !Z.eqb_eq. split; [intros [-> ->]; reflexivity|injection 1; auto].
Qed.

Lemma pt_eqb_refl p : pt_eqb p p = true.
Proof. apply pt_eqb_eq; reflexivity. Qed.

Lemma pt_eqb_neq p q : pt_eqb p q = false <-> p <> q.
Proof.
  destruct (pt_eqb p q) eqn:E; split; intro H; try discriminate; try reflexivity.
  - apply pt_eqb_eq in E. contradiction.
  - intro Heq. apply pt_eqb_eq in Heq. congruence.
Qed.

Lemma pt_eqb_sym p q : pt_eqb p q = pt_eqb q p.
Proof. unfold pt_eqb. rewrite (Z.eqb_sym (px p)), (Z.eqb_sym (py p)). reflexivity. Qed.

Lemma pt_eq_dec (p q : pt) : {p = q} + {p <> q}.
Proof. destruct (pt_eqb p q) eqn:E; [left; apply pt_eqb_eq; auto | right; apply pt_eqb_neq; auto]. Defined.

Lemma pt_ltb_lt p q : pt_ltb p q = true <-> pt_lt p q.
Proof. unfold pt_ltb, pt_lt. lia. Qed.

Lemma pt_ltb_ge p q : pt_ltb p q = false <-> ~ pt_lt p q.
Proof. unfold pt_ltb, pt_lt. lia. Qed.

Lemma pt_ext p q : px p = px q -> py p = py q -> p = q.
Proof. destruct p, q; simpl; congruence. Qed.

Lemma pt_lt_irrefl p : ~ pt_lt p p.
Proof. unfold pt_lt. lia. Qed.

Lemma pt_lt_trans p q r : pt_lt p q -> pt_lt q r -> pt_lt p r.
Proof. unfold pt_lt. lia. Qed.

Lemma pt_lt_neq p q : pt_lt p q -> p <> q.
Proof. intros H ->. eapply pt_lt_irrefl; eauto. Qed.

Lemma pt_total p q : {pt_lt p q} + {p = q} + {pt_lt q p}.
Proof.
  destruct (pt_ltb p q) eqn:E1; [left; left; apply pt_ltb_lt; auto|].
  destruct (pt_eqb p q) eqn:E2; [left; right; apply pt_eqb_eq; auto|].
  right. apply pt_ltb_ge in E1. apply pt_eqb_neq in E2. unfold pt_lt in *.
  destruct (Z.lt_trichotomy (px p) (px q)) as [H|[H|H]]; [exfalso; tauto| |tauto].
  destruct (Z.lt_trichotomy (py p) (py q)) as [H'|[H'|H']]; [exfalso; tauto| |auto].
  exfalso; apply E2, pt_ext; auto.
Qed.

Lemma pt_leb_total p q : pt_leb p q = true \/ pt_leb q p = true.
Proof. unfold pt_leb, pt_ltb, pt_eqb. lia. Qed.

Lemma pt_leb_trans p q r : pt_leb p q = true -> pt_leb q r = true -> pt_leb p r = true.
Proof. unfold pt_leb, pt_ltb, pt_eqb. lia. Qed.

Lemma pt_leb_refl p : pt_leb p p = true.
Proof. unfold pt_leb. rewrite pt_eqb_refl, orb_true_r. reflexivity. Qed.

Lemma pt_leb_antisym p q : pt_leb p q = true -> pt_leb q p = true -> p = q.
Proof. intros H1 H2. apply pt_ext; unfold pt_leb, pt_ltb, pt_eqb in *; lia. Qed.

Lemma pt_leb_lt p q : pt_leb p q = true -> p <> q -> pt_lt p q.
Proof.
  unfold pt_leb. rewrite orb_true_iff. intros [H|H] N; [apply pt_ltb_lt; auto|].
  apply pt_eqb_eq in H; contradiction.
Qed.

Lemma pt_leb_alt p q : pt_leb p q = negb (pt_ltb q p).
Proof. unfold pt_leb, pt_ltb, pt_eqb. lia. Qed.

(** ** Orientation.  Contract of [i_float::triangle::Triangle]:
    [cross3 p0 p1 p2 > 0] iff p0,p1,p2 turn counter-clockwise.
    [geom/v_segment.rs:93-105] (test_00) fixes the sign convention of
    [clock_order_point]: clockwise is [Less]. *)
Definition cross3 (p0 p1 p2 : pt) : Z :=
  (px p1 - px p0) * (py p2 - py p0) - (py p1 - py p0) * (px p2 - px p0).

Definition is_clockwise (p0 p1 p2 : pt) : bool := cross3 p0 p1 p2 <? 0.
Definition is_line_point (p0 p1 p2 : pt) : bool := cross3 p0 p1 p2 =? 0.
Definition is_not_line_point (p0 p1 p2 : pt) : bool := negb (is_line_point p0 p1 p2).
Definition clock_direction (p0 p1 p2 : pt) : Z := - Z.sgn (cross3 p0 p1 p2).
Definition clock_order (p0 p1 p2 : pt) : comparison := cross3 p0 p1 p2 ?= 0.

(** [IntPoint::sqr_distance]. *)
Definition sqr_dist (p q : pt) : Z :=
  (px p - px q) * (px p - px q) + (py p - py q) * (py p - py q).

(** ** Segments.  [geom/x_segment.rs:6-10]; the same data is [VSegment]
    ([geom/v_segment.rs:8-12], conversion by transmute). *)
Record xseg := XS { sa : pt; sb : pt }.

Definition xseg_eqb (s t : xseg) : bool := pt_eqb (sa s) (sa t) && pt_eqb (sb s) (sb t).

(** [geom/x_segment.rs:44-54] [Ord for XSegment]: by a, then by b. *)
Definition xseg_ltb (s t : xseg) : bool :=
  pt_ltb (sa s) (sa t) || (pt_eqb (sa s) (sa t) && pt_ltb (sb s) (sb t)).
Definition xseg_leb (s t : xseg) : bool := negb (xseg_ltb t s).

Lemma xseg_eqb_eq s t : xseg_eqb s t = true <-> s = t.
Proof.
  unfold xseg_eqb. rewrite andb_true_iff, !pt_eqb_eq.
  destruct s, t; simpl. split; [intros [-> ->]; auto|injection 1; auto].
Qed.

Lemma xseg_eqb_refl s : xseg_eqb s s = true.
Proof. apply xseg_eqb_eq; auto. Qed.

Lemma xseg_eqb_neq s t : xseg_eqb s t = false <-> s <> t.
Proof.
  destruct (xseg_eqb s t) eqn:E; split; intro H; try discriminate; try reflexivity.
  - apply xseg_eqb_eq in E. contradiction.
  - intro Heq. apply xseg_eqb_eq in Heq. congruence.
Qed.

Lemma xseg_eq_dec (s t : xseg) : {s = t} + {s <> t}.
Proof. destruct (xseg_eqb s t) eqn:E; [left; apply xseg_eqb_eq; auto | right; apply xseg_eqb_neq; auto]. Defined.

Definition xseg_lt (s t : xseg) : Prop :=
  pt_lt (sa s) (sa t) \/ (sa s = sa t /\ pt_lt (sb s) (sb t)).

Lemma xseg_ltb_lt s t : xseg_ltb s t = true <-> xseg_lt s t.
Proof.
  unfold xseg_ltb, xseg_lt.
  rewrite orb_true_iff, andb_true_iff, !pt_ltb_lt, pt_eqb_eq. reflexivity.
Qed.

Lemma xseg_lt_irrefl s : ~ xseg_lt s s.
Proof. unfold xseg_lt. intros [H|[_ H]]; eapply pt_lt_irrefl; eauto. Qed.

Lemma xseg_lt_trans s t u : xseg_lt s t -> xseg_lt t u -> xseg_lt s u.
Proof.
  unfold xseg_lt. intros [H1|[E1 H1]] [H2|[E2 H2]].
  - left; eapply pt_lt_trans; eauto.
  - left; congruence.
  - left; congruence.
  - right; split; [congruence|eapply pt_lt_trans; eauto].
Qed.

Lemma xseg_total s t : xseg_lt s t \/ s = t \/ xseg_lt t s.
Proof.
  unfold xseg_lt. destruct (pt_total (sa s) (sa t)) as [[H|H]|H]; auto.
  destruct (pt_total (sb s) (sb t)) as [[H'|H']|H']; auto.
  right; left. destruct s, t; simpl in *; congruence.
Qed.

Lemma xseg_leb_total s t : xseg_leb s t = true \/ xseg_leb t s = true.
Proof.
  unfold xseg_leb. rewrite !negb_true_iff.
  destruct (xseg_ltb t s) eqn:E; auto. right.
  destruct (xseg_ltb s t) eqn:E'; auto. exfalso.
  apply xseg_ltb_lt in E, E'. eapply xseg_lt_irrefl, xseg_lt_trans; eauto.
Qed.

Lemma xseg_leb_le s t : xseg_leb s t = true <-> xseg_lt s t \/ s = t.
Proof.
  unfold xseg_leb. rewrite negb_true_iff. split.
  - intro H. destruct (xseg_total s t) as [|[|C]]; auto.
    apply xseg_ltb_lt in C; congruence.
  - intros H. destruct (xseg_ltb t s) eqn:E; auto. apply xseg_ltb_lt in E. exfalso.
    destruct H as [H| ->]; [eapply xseg_lt_irrefl, xseg_lt_trans; eauto|eapply xseg_lt_irrefl; eauto].
Qed.

Lemma xseg_leb_trans s t u : xseg_leb s t = true -> xseg_leb t u = true -> xseg_leb s u = true.
Proof.
  rewrite !xseg_leb_le. intros [H1|H1] [H2|H2]; subst; auto.
  left; eapply xseg_lt_trans; eauto.
Qed.

(** [geom/x_segment.rs:23-25] *)
Definition is_not_vertical (s : xseg) : bool := negb (px (sa s) =? px (sb s)).

(** A well-formed segment runs from the lexicographically smaller to the larger point. *)
Definition wf_xseg (s : xseg) : Prop := pt_lt (sa s) (sb s).

(** ** Sorting.  [smart_bin_sort_by], [sort_by], [sort_unstable_by],
    [par_sort_unstable_by] all return a sorted permutation
    ([util/sort.rs:15-44] only selects the algorithm); the model uses insertion sort. *)
Section Sort.
  Context {A : Type} (leb : A -> A -> bool).

  Fixpoint insert (x : A) (l : list A) : list A :=
    match l with
    | [] => [x]
    | y :: r => if leb x y then x :: y :: r else y :: insert x r
    end.

  Fixpoint isort (l : list A) : list A :=
    match l with
    | [] => []
    | x :: r => insert x (isort r)
    end.

  Lemma insert_perm x l : Permutation (insert x l) (x :: l).
  Proof.
    induction l as [|y r IH]; simpl; [auto|].
    destruct (leb x y); [auto|].
    rewrite IH. apply perm_swap.
  Qed.

  Lemma isort_perm l : Permutation (isort l) l.
  Proof.
    induction l as [|x r IH]; simpl; [auto|].
    rewrite insert_perm. auto.
  Qed.

  Hypothesis leb_total : forall x y, leb x y = true \/ leb y x = true.
  Hypothesis leb_trans : forall x y z, leb x y = true -> leb y z = true -> leb x z = true.

  Let le x y := leb x y = true.

  Lemma insert_sorted x l : StronglySorted le l -> StronglySorted le (insert x l).
  Proof.
    induction l as [|y r IH]; intro H; simpl.
    - repeat constructor.
    - inversion H as [|? ? Hr Hy]; subst.
      destruct (leb x y) eqn:E.
      + constructor; [auto|]. constructor; [exact E|].
        eapply Forall_impl; [|exact Hy]. intros z Hz. eapply leb_trans; eauto.
      + constructor; [auto|].
        rewrite insert_perm. constructor; auto.
        destruct (leb_total x y); [congruence|auto].
  Qed.

  Lemma isort_sorted l : StronglySorted le (isort l).
  Proof. induction l; simpl; [constructor|apply insert_sorted; auto]. Qed.
End Sort.

Lemma isort_length {A} (leb : A -> A -> bool) l : length (isort leb l) = length l.
Proof. apply Permutation_length, isort_perm. Qed.

Lemma isort_in {A} (leb : A -> A -> bool) l x : In x (isort leb l) <-> In x l.
Proof. split; apply Permutation_in; [apply isort_perm|apply Permutation_sym, isort_perm]. Qed.

(** ** Finite sums. *)
Definition zsum {A} (f : A -> Z) (l : list A) : Z := fold_right (fun x acc => f x + acc) 0 l.

Arguments zsum : simpl never.

Lemma zsum_nil {A} (f : A -> Z) : zsum f [] = 0.
Proof. reflexivity. Qed.

Lemma zsum_cons {A} (f : A -> Z) x l : zsum f (x :: l) = f x + zsum f l.
Proof. reflexivity. Qed.

Lemma zsum_app {A} (f : A -> Z) l m : zsum f (l ++ m) = zsum f l + zsum f m.
Proof. induction l as [|x l IH]; [reflexivity|]. simpl app. rewrite !zsum_cons, IH. lia. Qed.

Lemma zsum_perm {A} (f : A -> Z) l m : Permutation l m -> zsum f l = zsum f m.
Proof. induction 1; rewrite ?zsum_cons; lia. Qed.

Lemma zsum_ext {A} (f g : A -> Z) l : (forall x, In x l -> f x = g x) -> zsum f l = zsum g l.
Proof.
  induction l as [|x r IH]; intro H; [reflexivity|].
  rewrite !zsum_cons, IH, (H x); auto with datatypes.
Qed.

Lemma zsum_plus {A} (f g : A -> Z) l : zsum (fun x => f x + g x) l = zsum f l + zsum g l.
Proof. induction l; [reflexivity|rewrite !zsum_cons; lia]. Qed.

Lemma zsum_minus {A} (f g : A -> Z) l : zsum (fun x => f x - g x) l = zsum f l - zsum g l.
Proof. induction l; [reflexivity|rewrite !zsum_cons; lia]. Qed.

Lemma zsum_mult {A} (c : Z) (f : A -> Z) l : zsum (fun x => c * f x) l = c * zsum f l.
Proof. induction l; [rewrite !zsum_nil; lia|rewrite !zsum_cons; lia]. Qed.

Lemma zsum_zero {A} (f : A -> Z) l : (forall x, In x l -> f x = 0) -> zsum f l = 0.
Proof.
  induction l as [|x r IH]; intro H; [reflexivity|].
  rewrite zsum_cons, IH, (H x); auto with datatypes.
Qed.

Lemma zsum_map {A B} (g : A -> B) (f : B -> Z) l : zsum f (map g l) = zsum (fun x => f (g x)) l.
Proof. induction l; [reflexivity|simpl map; rewrite !zsum_cons; lia]. Qed.

Lemma zsum_flat_map {A B} (g : A -> list B) (f : B -> Z) l :
  zsum f (flat_map g l) = zsum (fun x => zsum f (g x)) l.
Proof. induction l; [reflexivity|simpl; rewrite zsum_app, zsum_cons; lia]. Qed.

Lemma zsum_swap {A B} (f : A -> B -> Z) l m :
  zsum (fun x => zsum (fun y => f x y) m) l = zsum (fun y => zsum (fun x => f x y) l) m.
Proof.
  induction l as [|x r IH].
  - rewrite zsum_nil. symmetry. apply zsum_zero; auto.
  - rewrite zsum_cons, IH, <- zsum_plus. apply zsum_ext. intros; rewrite zsum_cons; lia.
Qed.

Lemma zsum_filter {A} (f : A -> Z) (g : A -> bool) l :
  zsum f (filter g l) = zsum (fun x => if g x then f x else 0) l.
Proof. induction l as [|x r IH]; simpl; [reflexivity|]. destruct (g x) eqn:E; rewrite ?zsum_cons, ?IH, ?E; lia. Qed.

(** Indicator of a boolean. *)
Definition bz (b : bool) : Z := if b then 1 else 0.

Lemma NoDup_app_r {A} (l m : list A) : NoDup (l ++ m) -> NoDup m.
Proof. induction l; simpl; auto. inversion 1; auto. Qed.

Lemma NoDup_app_l {A} (l m : list A) : NoDup (l ++ m) -> NoDup l.
Proof.
  induction l as [|x l IH]; simpl; intro H; [constructor|]. inversion H as [|? ? H1 H2]; subst.
  constructor; auto. intro I. apply H1. apply in_or_app; auto.
Qed.
