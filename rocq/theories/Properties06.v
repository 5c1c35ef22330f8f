(** * Property theorems, part 6: splitting contours in repeated vertices (C29, C30). *)
From Verif Require Import Base Spec QLib ModelSegm ModelFill ModelExtract ModelLoops LoopProofs ModelDivide DivideProofs Properties04.
Open Scope nat_scope.

(** ** Specification *)
(** no two vertices are visited alternately: not [.. P .. Q .. P .. Q ..].  The walks around the
    faces of a plane graph have this property. *)
Definition visits_nest (l : list pt) : Prop :=
  forall i j k m P Q, i < j < k -> k < m -> nth_error l i = Some P -> nth_error l j = Some Q ->
    nth_error l k = Some P -> nth_error l m = Some Q -> P = Q.
(** every edge of [l] is an edge of exactly one of [loops] (counted with multiplicity) *)
Definition same_edges (l : list pt) (loops : list (list pt)) : Prop :=
  Permutation (edges l) (concat (map edges loops)).
Definition visits (l : list pt) (x : pt) : nat := count_occ pt_eq_dec l x.

Lemma sub_nth {A} (s l : list A) : sub s l -> forall x r, s = x :: r -> exists i, nth_error l i = Some x /\ sub r (skipn (S i) l).
Proof.
  induction 1 as [l|y s l H IH|y s l H IH]; intros x r E; try discriminate.
  - injection E as <- <-. exists 0. simpl. auto.
  - destruct (IH x r E) as (i & Hi & Hs). exists (S i). simpl. auto.
Qed.
Lemma nth_skip {A} i j (l : list A) : nth_error (skipn i l) j = nth_error l (i + j).
Proof. revert l. induction i as [|i IH]; intro l; auto. destruct l; simpl; [destruct j; auto|]. apply IH. Qed.
Lemma skip_skip {A} i j (l : list A) : skipn i (skipn j l) = skipn (j + i) l.
Proof. revert l. induction j as [|j IH]; intro l; auto. destruct l; simpl; [apply skipn_nil|]. apply IH. Qed.
Lemma visits_noncrossing l : visits_nest l -> noncrossing l.
Proof.
  intros V P Q N S. apply sub_nth with (x := P) (r := [Q; P; Q]) in S as (i & Hi & S); auto.
  apply sub_nth with (x := Q) (r := [P; Q]) in S as (j & Hj & S); auto. rewrite nth_skip in Hj. rewrite skip_skip in S.
  apply sub_nth with (x := P) (r := [Q]) in S as (k & Hk & S); auto. rewrite nth_skip in Hk. rewrite skip_skip in S.
  apply sub_nth with (x := Q) (r := []) in S as (m & Hm & S); auto. rewrite nth_skip in Hm.
  apply N. eapply (V i _ _ _ P Q); [| |exact Hi|exact Hj|exact Hk|exact Hm]; lia.
Qed.

Lemma zsum_concat {A} (f : A -> Z) ls : zsum f (concat ls) = zsum (zsum f) ls.
Proof. induction ls as [|l ls IH]; auto. simpl concat. rewrite zsum_app, IH, zsum_cons. auto. Qed.
Lemma zsum_map {A B} (f : B -> Z) (g : A -> B) l : zsum f (map g l) = zsum (fun x => f (g x)) l.
Proof. induction l as [|x l IH]; auto. simpl map. rewrite !zsum_cons, IH. auto. Qed.
Lemma same_edges_wind l loops q : same_edges l loops -> contour_wind l q = contours_wind loops q.
Proof.
  intro P. unfold contour_wind, contours_wind. rewrite (zsum_perm _ _ _ P), zsum_concat, zsum_map. reflexivity.
Qed.

(** ** C29: splitting the loops of a string contour *)
(** every path whose visits nest, no lower bound on the area: the function returns; every returned
    loop is simple and has at least three vertices, all of them from the path; together with loops
    of one or two vertices (which enclose nothing) they contain every edge of the path exactly once,
    in its direction; hence the loops wind around every point as the path does.  What is missing:
    paths whose visits do not nest, and [min_area > 0], for which the claim is false. *)
Theorem C29_split_loops_partial l : visits_nest l ->
  exists loops tiny, split_loops 0 l = Some loops /\ same_edges l (loops ++ tiny) /\
    Forall (fun c => NoDup c /\ 3 <= length c) loops /\ Forall (fun c : list pt => length c <= 2) tiny /\
    (forall c x, In c loops -> In x c -> In x l) /\
    forall q, contours_wind loops q = contour_wind l q.
Proof.
  intro V. destruct (split_loops_spec l (visits_noncrossing l V)) as (loops & tiny & E & P & F & T & I).
  exists loops, tiny. repeat (split; auto). intro q. rewrite (same_edges_wind l (loops ++ tiny) q P). unfold contours_wind. rewrite zsum_app.
  assert (Z : zsum (fun path => contour_wind path q) tiny = 0%Z); [|lia].
  clear - T. induction T as [|c t L T IH]; auto. rewrite zsum_cons, IH, short_contour by lia. auto.
Qed.

(** a way to check [visits_nest] for the examples *)
Definition nestb (l : list pt) : bool :=
  let at_ i := nth i l (Pt 0 0) in let r := seq 0 (length l) in
  forallb (fun i => forallb (fun j => forallb (fun k => forallb (fun m =>
    implb ((i <? j) && (j <? k) && (k <? m) && pt_eqb (at_ i) (at_ k) && pt_eqb (at_ j) (at_ m)) (pt_eqb (at_ i) (at_ j))) r) r) r) r.
Lemma nestb_ok l : nestb l = true -> visits_nest l.
Proof.
  intros H i j k m P Q H1 H2 Hi Hj Hk Hm.
  assert (R : forall n x, nth_error l n = Some x -> In n (seq 0 (length l)) /\ nth n l (Pt 0 0) = x).
  { intros n x E. split; [apply in_seq; assert (n < length l) by (apply nth_error_Some; congruence); lia|]. apply nth_error_nth with (d := Pt 0 0) in E. auto. }
  apply R in Hi as [Ii Ei], Hj as [Ij Ej], Hk as [Ik Ek], Hm as [Im Em]. unfold nestb in H.
  rewrite forallb_forall in H. specialize (H i Ii). rewrite forallb_forall in H. specialize (H j Ij). rewrite forallb_forall in H. specialize (H k Ik).
  rewrite forallb_forall in H. specialize (H m Im). rewrite Ei, Ej, Ek, Em, !pt_eqb_refl in H.
  assert (A : (i <? j) && (j <? k) && (k <? m) = true) by (rewrite !andb_true_iff, !Nat.ltb_lt; lia). rewrite A in H. simpl in H. apply pt_eqb_eq. auto.
Qed.
(** two squares that meet in (10,10), walked in one go *)
Definition eight : list pt := [Pt 0 0; Pt 10 0; Pt 10 10; Pt 20 10; Pt 20 20; Pt 10 20; Pt 10 10; Pt 0 10].
Lemma eight_nests : visits_nest eight.
Proof. apply nestb_ok. vm_compute. reflexivity. Qed.
Example C29_example : split_loops 0 eight = Some [[Pt 20 10; Pt 20 20; Pt 10 20; Pt 10 10]; [Pt 0 0; Pt 10 0; Pt 10 10; Pt 0 10]].
Proof. reflexivity. Qed.

(** what a minimal area does: of the loops that are closed on the way, exactly those with an area
    BELOW it are kept; the loop that is left at the end is always kept *)
Lemma split_go_area m : (m <> 0)%Z -> forall l path mp res path' res', split_go 0 l path mp res = Some (path', res') ->
  split_go m l path mp (filter (fun c => Z.abs (area2 c) / 2 <? m)%Z res) = Some (path', filter (fun c => Z.abs (area2 c) / 2 <? m)%Z res').
Proof.
  intro Hm. induction l as [|p r IH]; intros path mp res path' res' H; cbn [split_go] in *; [injection H as <- <-; auto|].
  destruct (hm_get p mp) as [pos|]; [|apply IH; auto]. destruct (length path <? pos); [discriminate|]. destruct (length path - pos <? 2); [apply IH; auto|].
  unfold validate_area in *. cbn [Z.eqb] in H. apply IH in H. rewrite filter_app in H. cbn [filter] in H.
  rewrite (proj2 (Z.eqb_neq _ _) Hm), Z.shiftr_div_pow2 by lia. change (2 ^ 1)%Z with 2%Z. destruct (_ <? m)%Z; rewrite ?app_nil_r in H; exact H.
Qed.
Theorem C29_min_area_exact l loops m : split_loops 0 l = Some loops -> (0 < m)%Z ->
  exists closed rest, loops = closed ++ rest /\ length rest <= 1 /\
    split_loops m l = Some (filter (fun c => Z.abs (area2 c) / 2 <? m)%Z closed ++ rest).
Proof.
  intros H Hm. unfold split_loops in *. destruct (split_go 0 l [] [] []) as [[path res]|] eqn:E; [|discriminate].
  pose proof (split_go_area m ltac:(lia) _ _ _ _ _ _ E) as G. cbn [filter] in G. rewrite G. injection H as <-.
  exists res, (if 2 <? length path then [path] else []). destruct (2 <? length path); rewrite ?app_nil_r; cbn [length]; repeat split; auto.
Qed.

(** the area test is inverted: with [min_area = 50] the loop of area 100 is dropped although
    it is large, and a loop of area 2 is kept *)
Theorem C29_min_area_refuted :
  exists l loops kept big, visits_nest l /\ split_loops 0 l = Some loops /\ In big loops /\ (50 <= Z.abs (area2 big) / 2)%Z /\
    split_loops 50 l = Some kept /\ ~ In big kept.
Proof.
  exists eight. eexists. eexists. exists [Pt 20 10; Pt 20 20; Pt 10 20; Pt 10 10]. split; [apply eight_nests|]. split; [reflexivity|]. split; [simpl; auto|].
  split; [vm_compute; discriminate|]. split; [reflexivity|]. simpl. intros [E|[]]. discriminate.
Qed.
Definition spur : list pt := [Pt 0 0; Pt 10 0; Pt 10 10; Pt 12 10; Pt 12 12; Pt 10 12; Pt 10 10; Pt 0 10].
Theorem C29_min_area_keeps_small_refuted :
  exists l loops c, split_loops 50 l = Some loops /\ In c loops /\ (Z.abs (area2 c) / 2 < 50)%Z.
Proof. exists spur. eexists. exists [Pt 12 10; Pt 12 12; Pt 10 12; Pt 10 10]. split; [reflexivity|]. split; [simpl; auto|reflexivity]. Qed.
(** visits that do not nest: a stale position is used and the function panics (the trait is internal;
    no claim is made that the callers can produce such a path) *)
Theorem C29_alternating_refuted : exists l, split_loops 0 l = None.
Proof. exists [Pt 1 0; Pt 2 0; Pt 3 0; Pt 4 0; Pt 2 0; Pt 4 0]. reflexivity. Qed.

(** ** C30: [decompose_contours] *)
(** every contour whose visits nest, whose greatest vertex is not visited twice, and in which only
    the first repeated vertex may be visited more than twice: [None] is returned exactly if no
    vertex is repeated; otherwise all returned contours are simple and contain together every edge
    of the contour exactly once.  Missing: the other contours, for which the claim is false. *)
Theorem C30_decompose_partial l : 3 <= length l -> visits_nest l ->
  (forall p, 2 <= visits l p -> exists q, In q l /\ pt_lt p q) ->
  (forall x, 3 <= visits l x -> exists pre post, l = pre ++ x :: post /\ forall y, In y pre -> visits l y = 1) ->
  (NoDup l /\ decompose_contours l = Some None) \/
  (~ NoDup l /\ exists cs, decompose_contours l = Some (Some cs) /\ same_edges l cs /\ Forall (@NoDup pt) cs /\ forall q, contours_wind cs q = contour_wind l q).
Proof.
  intros Len V Mx Tw. assert (H := decompose_spec l Len (visits_noncrossing l V) Mx).
  assert (Tw' : forall x, 3 <= visits l x -> first_repeated l x).
  { intros x L. destruct (Tw x L) as (pre & post & E & Hp). exists pre, post. unfold visits in *. repeat split; auto. lia. }
  specialize (H Tw'). destruct (decompose_contours l) as [[cs|]|]; [right| |tauto].
  - destruct H as (P & F & N). split; auto. exists cs. repeat split; auto. intro q. symmetry. apply same_edges_wind. auto.
  - left. auto.
Qed.
Example C30_example : decompose_contours eight = Some (Some [[Pt 10 10; Pt 20 10; Pt 20 20; Pt 10 20]; [Pt 10 10; Pt 0 10; Pt 0 0; Pt 10 0]]).
Proof. reflexivity. Qed.
Lemma C30_example_hyp : 3 <= length eight /\ visits_nest eight /\ (forall p, 2 <= visits eight p -> exists q, In q eight /\ pt_lt p q) /\ forall x, visits eight x < 3.
Proof.
  split; [simpl; lia|]. split; [apply eight_nests|].
  assert (A : forall x, x <> Pt 10 10 -> visits eight x < 2).
  { intros x N. unfold visits. simpl. repeat (destruct pt_eq_dec; try congruence; try lia). }
  split.
  - intros p L. destruct (pt_eq_dec p (Pt 10 10)) as [->|N]; [|specialize (A p N); lia]. exists (Pt 20 20). split; [simpl; tauto|unfold pt_lt; simpl; lia].
  - intro x. destruct (pt_eq_dec x (Pt 10 10)) as [->|N]; [vm_compute; lia|specialize (A x N); lia].
Qed.

(** the group of the greatest point is never considered: a contour that visits only its greatest
    vertex twice is not split *)
Theorem C30_greatest_vertex_refuted : exists l, visits_nest l /\ ~ NoDup l /\ decompose_contours l = Some None.
Proof.
  exists [Pt 0 0; Pt 9 0; Pt 3 5; Pt 9 0; Pt 3 9]. split; [|split].
  - apply nestb_ok. vm_compute. reflexivity.
  - intro N. inversion N; subst. inversion H2; subst. apply H3. simpl. auto.
  - reflexivity.
Qed.
(** a third visit of a vertex inside another loop: edges are lost *)
Theorem C30_third_visit_refuted : exists l cs, decompose_contours l = Some (Some cs) /\ ~ same_edges l cs.
Proof.
  exists [Pt 1 0; Pt 2 0; Pt 3 0; Pt 2 0; Pt 4 0; Pt 2 0; Pt 5 0; Pt 1 0; Pt 9 0]. eexists. split; [reflexivity|].
  intro P. apply Permutation_length in P. vm_compute in P. discriminate.
Qed.
(** alternating visits: edges are lost *)
Theorem C30_alternating_refuted : exists l cs, decompose_contours l = Some (Some cs) /\ ~ same_edges l cs.
Proof.
  exists [Pt 1 0; Pt 2 0; Pt 3 0; Pt 2 0; Pt 3 0; Pt 9 0]. eexists. split; [reflexivity|].
  intro P. apply Permutation_length in P. vm_compute in P. discriminate.
Qed.
