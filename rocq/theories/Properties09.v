(** * C33, C34: the segments generated for offsets of contours and for strokes of paths.

    [FloatOps] has no laws, so every theorem here holds whatever floating point does (rounding,
    overflow, NaN), and for every map [to_int] from points to integer points.  The vocabulary:
    [leads] (a sequence of moves from a point to a point), [route] (such a sequence that passes along
    given sides in the given order, all other moves being between different points), [moves] (the moves
    along a list of points), [travel] (a segment of weight 1 or -1 read as a move), [shifted_side] and
    [right_side] (a side of the path moved by the radius to its left, right). *)
From Coq Require Import Qround Qabs.
From Verif Require Import Base Spec ModelSegm SegmProofs ModelMesh MeshProofs.
Open Scope Z_scope.

(** ** closed sequences of moves *)
Lemma moves_edges : forall w p q, leads p w q -> w <> [] -> w = combine (map fst w) (tl (map fst w) ++ [q]).
Proof.
  induction w as [|[a b] w IH]; intros p q L N; [congruence|]. destruct L as [-> L]. cbn [map fst combine tl]. destruct w as [|[c d] w].
  - simpl in L. subst b. reflexivity.
  - pose proof (IH b q L ltac:(discriminate)) as E. destruct L as [-> L]. cbn [map fst tl app combine] in *. f_equal. exact E.
Qed.
Lemma closed_edges w p : leads p w p -> edges (map fst w) = w.
Proof.
  intro L. destruct w as [|[a b] w]; [reflexivity|]. destruct L as [-> L0]. symmetry. apply (moves_edges ((p, b) :: w) p p (conj eq_refl L0)). discriminate.
Qed.
Lemma proper_wind s q : proper s -> (if under (sx s) q then osubj (sc s) else 0) = edge_wind q (travel s).
Proof.
  destruct s as [[a b] [k o]]. unfold proper, travel, edge_wind. cbn [sx sc sa sb osubj]. intros [[-> L]|[-> L]]; cbn [Z.eqb Pos.eqb fst snd].
  - rewrite (ltb_xor_under a b q) by (apply pt_ltb_lt; auto). reflexivity.
  - assert (E : pt_ltb b a = false) by (destruct (pt_ltb b a) eqn:E; auto; apply pt_ltb_lt in E; tauto).
    rewrite (nltb_under b a q E). reflexivity.
Qed.
Lemma proper_boundary s v : proper s -> osubj (sc s) * (bz (pt_eqb (sb (sx s)) v) - bz (pt_eqb (sa (sx s)) v)) = bd_edge v (fst (travel s)) (snd (travel s)).
Proof.
  destruct s as [[a b] [k o]]. unfold proper, travel, bd_edge. cbn [sx sc sa sb osubj]. intros [[-> _]|[-> _]]; cbn [Z.eqb Pos.eqb fst snd]; lia.
Qed.
Lemma chain_wind l q : Forall proper l -> wind (chain_of osubj l) q = zsum (edge_wind q) (map travel l).
Proof.
  intro A. rewrite wind_chain_of, zsum_map. apply zsum_ext. intros s I. apply proper_wind. rewrite Forall_forall in A. auto.
Qed.
Lemma leads_boundary v : forall w p q, leads p w q -> zsum (fun m => bd_edge v (fst m) (snd m)) w = bd_edge v p q.
Proof.
  induction w as [|[a b] w IH]; intros p q L.
  - simpl in L. subst q. rewrite zsum_nil. unfold bd_edge. lia.
  - destruct L as [-> L]. rewrite zsum_cons, (IH _ _ L). cbn [fst snd]. unfold bd_edge. lia.
Qed.
Lemma chain_balanced l p : Forall proper l -> leads p (map travel l) p -> balanced (chain_of osubj l).
Proof.
  intros A L v. rewrite boundary_chain_of. transitivity (zsum (fun m => bd_edge v (fst m) (snd m)) (map travel l)).
  - rewrite zsum_map. apply zsum_ext. intros s I. apply proper_boundary. rewrite Forall_forall in A. auto.
  - rewrite (leads_boundary v _ _ _ L). unfold bd_edge. lia.
Qed.
Lemma chain_contour l p q : Forall proper l -> leads p (map travel l) p -> wind (chain_of osubj l) q = contour_wind (map fst (map travel l)) q.
Proof. intros A L. rewrite chain_wind by auto. unfold contour_wind. rewrite (closed_edges _ _ L). reflexivity. Qed.
Lemma perm_wind (l m : list (segment cntO)) q : Permutation l m -> wind (chain_of osubj l) q = wind (chain_of osubj m) q.
Proof. intro P. unfold wind. apply zsum_perm. apply Permutation_map. auto. Qed.
Lemma perm_balanced (l m : list (segment cntO)) : Permutation l m -> balanced (chain_of osubj m) -> balanced (chain_of osubj l).
Proof. intros P B v. rewrite <- (B v). unfold boundary. apply zsum_perm. apply Permutation_map. auto. Qed.
Lemma app_wind (l m : list (segment cntO)) q : wind (chain_of osubj (l ++ m)) q = wind (chain_of osubj l) q + wind (chain_of osubj m) q.
Proof. unfold wind, chain_of. rewrite map_app. apply zsum_app. Qed.
Lemma app_balanced (l m : list (segment cntO)) : balanced (chain_of osubj l) -> balanced (chain_of osubj m) -> balanced (chain_of osubj (l ++ m)).
Proof. intros A B v. specialize (A v). specialize (B v). unfold boundary, chain_of in *. rewrite map_app, zsum_app. lia. Qed.

(** ** C33 *)
(** The segments of the offset of a contour: generation never fails; the segments, read in the order
    in which they were generated, are one closed walk that follows every side of the contour moved by the radius,
    in the order of the contour (sides that vanish in integer space are left out), and between two sides only makes
    moves between different points; they are balanced in every vertex, and their winding number is that of the walk. *)
Theorem C33_outline (F : FloatOps) (to_int : fp F -> pt) radius (join : line_join F) path :
  exists segs, outline_segments F to_int radius join path = Some segs /\
    match map (shifted_side F to_int radius) (ring_sides F to_int path) with
    | [] => segs = []
    | (a, b) :: r => route a ((a, b) :: r) (map travel segs) a
    end /\
    Forall proper segs /\
    balanced (chain_of osubj segs) /\
    (forall q, wind (chain_of osubj segs) q = contour_wind (map fst (map travel segs)) q).
Proof.
  destruct (outline_build_spec F to_int radius (outline_join F to_int radius join) path (outline_join_ok F to_int radius join)) as (segs & H & A & R).
  exists segs. split; [exact H|]. split; [exact R|]. split; [exact A|].
  assert (L : exists p, leads p (map travel segs) p).
  { destruct (map _ (ring_sides F to_int path)) as [|[a b] r]; [subst segs; exists (Pt 0 0); reflexivity|]. exists a. eapply route_leads. exact R. }
  destruct L as [p L]. split; [eapply chain_balanced; eauto|]. intro q. eapply chain_contour; eauto.
Qed.

(** The corners: a bevel is at most one move, a miter at most three, and the points of a round corner are the unit normal
    turned again and again, scaled by the radius and moved to the vertex. *)
Fixpoint turned (F : FloatOps) (r : rotator F) (k : nat) (v : fp F) : fp F := match k with O => v | S k' => turned F r k' (rotate F r v) end.
Lemma arc_points F to_int emit (E : forall a b, travel (emit a b) = (a, b)) rot center radius last : forall k v a,
  Forall (fun m => snd m = last \/ exists i, (1 <= i <= k)%nat /\ snd m = to_int (p_add F center (p_scale F (turned F rot i v) radius)))
    (map travel (arc_loop F to_int emit rot center radius k v a last)).
Proof.
  induction k as [|k IH]; intros v a; cbn [arc_loop].
  - destruct (pt_eqb a last); constructor; [|constructor]. rewrite E. auto.
  - cbv zeta. assert (R : forall a', Forall (fun m => snd m = last \/ exists i, (1 <= i <= S k)%nat /\ snd m = to_int (p_add F center (p_scale F (turned F rot i v) radius)))
      (map travel (arc_loop F to_int emit rot center radius k (rotate F rot v) a' last))).
    { intro a'. eapply Forall_impl; [|apply IH]. cbv beta. intros m [M|(i & Li & M)]; auto. right. exists (S i). split; [lia|]. exact M. }
    destruct (pt_eqb a _); auto. cbn [map]. constructor; auto. rewrite E. cbn [snd]. right. exists 1%nat. split; [lia|]. reflexivity.
Qed.
Theorem C33_corners F (to_int : fp F -> pt) radius a b c :
  let s0 := osection_new F radius a b in
  let s1 := osection_new F radius b c in
  (length (outline_join F to_int radius (Bevel F) s0 s1) <= 1)%nat /\
  (forall angle, (length (outline_join F to_int radius (MiterJoin F angle) s0 s1) <= 3)%nat) /\
  (forall angle, exists rot, Forall (fun m => snd m = shifted F to_int radius b c b \/
     exists i v, (v = f_xy F (n_neg F (f_y F (p_norm F (p_sub F b a)))) (f_x F (p_norm F (p_sub F b a)))) /\ snd m = to_int (p_add F b (p_scale F (turned F rot i v) radius)))
     (map travel (outline_join F to_int radius (RoundJoin F angle) s0 s1))).
Proof.
  cbv zeta. assert (Weak : forall s0 s1, (length (join_weak F to_int s0 s1) <= 1)%nat) by (intros; unfold join_weak; destruct (pt_eqb _ _); simpl; lia).
  split; [apply Weak|]. split.
  - intro angle. cbn [outline_join]. unfold omiter_join. cbv zeta. destruct (Bool.eqb _ _); [etransitivity; [apply Weak|lia]|]. destruct (_ <? 4); [etransitivity; [apply Weak|lia]|].
    destruct (n_lt F _ _).
    + rewrite !app_length. unfold push_ne. repeat match goal with |- context [pt_eqb ?a ?b] => destruct (pt_eqb a b) end; simpl; lia.
    + destruct (sharp _ _ _ _ _ _); simpl; lia.
  - intro angle. cbn [outline_join]. unfold oround_join. cbv zeta.
    assert (W : forall rot, Forall (fun m => snd m = shifted F to_int radius b c b \/
     exists i v, (v = f_xy F (n_neg F (f_y F (p_norm F (p_sub F b a)))) (f_x F (p_norm F (p_sub F b a)))) /\ snd m = to_int (p_add F b (p_scale F (turned F rot i v) radius)))
       (map travel (join_weak F to_int (osection_new F radius a b) (osection_new F radius b c)))).
    { intro rot. unfold join_weak. destruct (pt_eqb _ _); constructor; [|constructor]. rewrite travel_weak. left. reflexivity. }
    destruct (Bool.eqb _ _); [exists (rot_vector F a); apply W|]. destruct (n_lt F _ _); [exists (rot_vector F a); apply W|].
    eexists. eapply Forall_impl; [|apply arc_points, travel_bold]. cbv beta. intros m [M|(i & _ & M)]; [left; exact M|]. right. eexists i, _. split; [reflexivity|exact M].
Qed.

(** ** C34 *)
(** One open path of at least two points: the segments are, in some order, one closed walk: the start cap, then along the sides moved to the right,
    the end cap, and back along the sides moved to the left. *)
Theorem C34_open (F : FloatOps) (to_int : fp F -> pt) (style : stroke_style F) p0 rest : rest <> [] ->
  let b := stroke_builder_new F to_int style in
  let r := sb_radius F b in
  let sides := path_sides F to_int p0 rest in
  exists segs, stroke_build F to_int b false (p0 :: rest) = Some segs /\ Forall proper segs /\ balanced (chain_of osubj segs) /\
    match sides with
    | [] => segs = []
    | (x, y) :: _ =>
        let '(x', y') := last sides (x, y) in
        let d := p_norm F (p_sub F y x) in
        let d' := p_norm F (p_sub F y' x') in
        exists cap1 right cap2 left walk,
          walk = cap1 ++ right ++ cap2 ++ left /\
          cap1 = moves (shifted F to_int r x y x :: cap_at F to_int (f_xy F (n_neg F (f_x F d)) (n_neg F (f_y F d))) x (opt_points F (sb_start F b)) ++ [shifted_right F to_int r x y x]) /\
          route (shifted_right F to_int r x y x) (map (right_side F to_int r) sides) right (shifted_right F to_int r x' y' y') /\
          cap2 = moves (shifted_right F to_int r x' y' y' :: cap_at F to_int d' y' (opt_points F (sb_end F b)) ++ [shifted F to_int r x' y' y']) /\
          route (shifted F to_int r x' y' y') (rev (map (left_back F to_int r) sides)) left (shifted F to_int r x y x) /\
          Permutation (map travel segs) walk /\
          forall q, wind (chain_of osubj segs) q = contour_wind (map fst walk) q
    end.
Proof.
  intros Hr b r sides. destruct (open_spec F to_int b p0 rest (stroke_join_ok F to_int _ _) Hr) as (segs & H & A & R). cbv zeta in R. fold r sides in R.
  exists segs. split; [exact H|]. split; [exact A|]. destruct sides as [|[x y] sides0] eqn:Es.
  - subst segs. split; auto. intro v. reflexivity.
  - rewrite <- Es in *. destruct (last sides (x, y)) as [x' y'] eqn:El. cbn [fst snd] in R. destruct R as (c1 & rt & c2 & lf & P & C1 & R1 & C2 & R2).
    assert (L : leads (shifted F to_int r x y x) (map travel (c1 ++ rt ++ c2 ++ lf)) (shifted F to_int r x y x)).
    { rewrite !map_app. eapply leads_app; [rewrite C1; apply moves_leads|]. eapply leads_app; [eapply route_leads; exact R1|].
      eapply leads_app; [|eapply route_leads; exact R2]. rewrite C2. apply moves_leads. }
    assert (A' : Forall proper (c1 ++ rt ++ c2 ++ lf)) by (rewrite <- P; auto).
    split; [eapply perm_balanced; [exact P|]; eapply chain_balanced; eauto|].
    exists (map travel c1), (map travel rt), (map travel c2), (map travel lf), (map travel (c1 ++ rt ++ c2 ++ lf)).
    split; [rewrite !map_app; reflexivity|]. split; [exact C1|]. split; [exact R1|]. split; [exact C2|]. split; [exact R2|]. split; [apply Permutation_map; auto|].
    intro q. rewrite (perm_wind _ _ q P). eapply chain_contour; eauto.
Qed.
(** One closed path: two closed walks, along the sides moved to the right and back along the sides moved to the left. *)
Theorem C34_closed (F : FloatOps) (to_int : fp F -> pt) (style : stroke_style F) path :
  let b := stroke_builder_new F to_int style in
  let r := sb_radius F b in
  let sides := ring_sides F to_int path in
  exists segs, stroke_build F to_int b true path = Some segs /\ Forall proper segs /\ balanced (chain_of osubj segs) /\
    match sides with
    | [] => segs = []
    | (x, y) :: _ =>
        exists right left,
          route (shifted_right F to_int r x y x) (map (right_side F to_int r) sides) right (shifted_right F to_int r x y x) /\
          route (shifted F to_int r x y x) (rev (map (left_back F to_int r) sides)) left (shifted F to_int r x y x) /\
          Permutation (map travel segs) (left ++ right) /\
          forall q, wind (chain_of osubj segs) q = contour_wind (map fst right) q + contour_wind (map fst left) q
    end.
Proof.
  intros b r sides. destruct (closed_spec F to_int b path (stroke_join_ok F to_int _ _)) as (segs & H & A & R). cbv zeta in R. fold r sides in R.
  exists segs. split; [exact H|]. split; [exact A|]. destruct sides as [|[x y] sides0] eqn:Es.
  - subst segs. split; auto. intro v. reflexivity.
  - rewrite <- Es in *. destruct R as (tp & bt & P & R1 & R2). assert (A' : Forall proper tp /\ Forall proper bt) by (apply Forall_app; rewrite <- P; auto). destruct A' as [At Ab].
    split. { eapply perm_balanced; [exact P|]. apply app_balanced; eapply chain_balanced; eauto; eapply route_leads; eauto. }
    exists (map travel bt), (map travel tp). split; [exact R1|]. split; [exact R2|]. split; [rewrite <- map_app; apply Permutation_map; auto|].
    intro q. rewrite (perm_wind _ _ q P), app_wind. erewrite (chain_contour tp), (chain_contour bt); eauto using route_leads. lia.
Qed.
(** All paths of a call. *)
Theorem C34_stroke (F : FloatOps) (to_int : fp F -> pt) (style : stroke_style F) jc cc closed paths :
  (2 <= jc)%nat -> (exists p, In p paths /\ p <> []) -> (closed = false -> Forall (fun p => (2 <= length p)%nat) paths) ->
  exists segs, stroke_segments F to_int style jc cc closed paths = Some segs /\ balanced (chain_of osubj segs) /\ Forall proper segs /\
    concat_opt (map (stroke_build F to_int (stroke_builder_new F to_int style) closed) paths) = Some segs.
Proof.
  intros Hj (p & Ip & Np) Ho. unfold stroke_segments.
  assert (Pts : (1 <= length (concat paths))%nat).
  { clear Ho. induction paths as [|p' paths IH]; [destruct Ip|]. cbn [concat]. rewrite app_length. destruct Ip as [->|Ip]; [destruct p; [congruence|simpl; lia]|]. specialize (IH Ip). lia. }
  assert (G : exists segs, concat_opt (map (stroke_build F to_int (stroke_builder_new F to_int style) closed) paths) = Some segs /\ balanced (chain_of osubj segs) /\ Forall proper segs).
  { clear Ip Pts. induction paths as [|x paths IH]; [exists []; split; auto; split; auto; intro v; reflexivity|].
    destruct IH as (segs & H & B & A); [intro E; specialize (Ho E); inversion Ho; auto|].
    assert (X : exists l, stroke_build F to_int (stroke_builder_new F to_int style) closed x = Some l /\ balanced (chain_of osubj l) /\ Forall proper l).
    { destruct closed; [destruct (C34_closed F to_int style x) as (l & Hl & Al & Bl & _); eauto|].
      specialize (Ho eq_refl). apply Forall_inv in Ho. destruct x as [|p0 [|p1 x]]; simpl in Ho; try lia.
      destruct (C34_open F to_int style p0 (p1 :: x)) as (l & Hl & Al & Bl & _); [discriminate|eauto]. }
    destruct X as (l & Hl & Bl & Al). cbn [map concat_opt]. rewrite Hl, H. cbn [option_map concat_opt]. exists (l ++ segs). split; auto. split; [apply app_balanced; auto|apply Forall_app; auto]. }
  destruct G as (segs & H & B & A). exists segs. split; auto. destruct paths as [|x paths]; [destruct Ip|]. rewrite H. unfold stroke_capacity. set (n := length (concat (x :: paths))) in *. destruct closed.
  - destruct (Nat.ltb_spec (jc * n) 2); [nia|]. reflexivity.
  - destruct (Nat.ltb_spec n 1); [lia|]. reflexivity.
Qed.

(** ** Concrete runs: exact rational arithmetic in place of floating point.
    The square root is exact on squares of rationals, which is all the examples need; the trigonometric functions are not used by them. *)
Definition q_sqrt (x : Q) : Q := Z.sqrt (Qnum (Qred x)) # Z.to_pos (Z.sqrt (Zpos (Qden (Qred x)))).
Definition q_norm (p : Q * Q) : Q * Q := let l := q_sqrt (fst p * fst p + snd p * snd p) in (Qred (fst p / l), Qred (snd p / l)).
Definition QF : FloatOps := {|
  num := Q; f64 := Q; fp := (Q * Q)%type;
  n_add a b := Qred (a + b); n_sub a b := Qred (a - b); n_mul a b := Qred (a * b); n_div a b := Qred (a / b);
  n_neg a := Qred (- a); n_abs a := Qabs a; n_lt a b := Qltb a b; n_le a b := Qle_bool a b;
  to_f64 x := x; from_f64 x := x; d_lit x := x; d_pi := 355 # 113;
  d_add a b := Qred (a + b); d_mul a b := Qred (a * b); d_div a b := Qred (a / b); d_neg a := Qred (- a);
  d_max a b := if Qle_bool a b then b else a; d_min a b := if Qle_bool a b then a else b;
  d_clamp a lo hi := if Qle_bool a lo then lo else if Qle_bool hi a then hi else a;
  d_abs a := Qabs a; d_cos _ := 0; d_sin _ := 1; d_tan _ := 1; d_acos _ := 1; d_sqrt a := q_sqrt a; d_round a := a;
  d_usize a := Z.to_nat (Qfloor a); d_of_nat n := inject_Z (Z.of_nat n);
  f_xy x y := (x, y); f_x := fst; f_y := snd;
  p_add a b := (Qred (fst a + fst b), Qred (snd a + snd b)); p_sub a b := (Qred (fst a - fst b), Qred (snd a - snd b));
  p_scale a s := (Qred (fst a * s), Qred (snd a * s)); p_norm := q_norm;
  p_cross a b := Qred (fst a * snd b - snd a * fst b); p_dot a b := Qred (fst a * fst b + snd a * snd b) |}%Q.
(** rounding to the nearest integer *)
Definition q_round (p : Q * Q) : pt := Pt (Qfloor (fst p + (1 # 2))) (Qfloor (snd p + (1 # 2))).

(** a square enlarged by 2 ([outline] passes the negated offset) with bevelled corners *)
Example C33_example : exists segs, outline_segments QF q_round (-2)%Q (Bevel QF) [(0, 0); (10, 0); (10, 10); (0, 10)]%Q = Some segs /\
  map fst (map travel segs) = [Pt (-2) 10; Pt (-2) 0; Pt 0 (-2); Pt 10 (-2); Pt 12 0; Pt 12 10; Pt 10 12; Pt 0 12].
Proof. eexists. split; [vm_compute; reflexivity|]. vm_compute. reflexivity. Qed.
Definition q_style : stroke_style QF := SS QF 4%Q (Butt QF) (Square QF) (Bevel QF).
Example C34_example : exists segs, stroke_segments QF q_round q_style 2 3 false [[(0, 0); (10, 0); (10, 10)]]%Q = Some segs /\
  map fst (map travel segs) = [Pt 0 2; Pt 10 2; Pt 0 (-2); Pt 8 0; Pt 10 (-2); Pt 8 10; Pt 12 0; Pt 12 10; Pt 12 12; Pt 8 12].
Proof. eexists. split; [vm_compute; reflexivity|]. vm_compute. reflexivity. Qed.
Example C34_closed_example : exists segs, stroke_segments QF q_round q_style 2 3 true [[(0, 0); (10, 0); (10, 10)]; []]%Q = Some segs /\ length segs = 12%nat.
Proof. eexists. split; [vm_compute; reflexivity|]. reflexivity. Qed.

(** ** Where the generated segments are not fit for the overlay, or generation panics *)
Definition degenerate (s : segment cntO) : bool := pt_eqb (sa (sx s)) (sb (sx s)).
(** An offset side can collapse to a point although the side itself does not: [add_section] pushes it all the same.
    The overlay needs segments with two different ends. *)
Theorem C33_degenerate_refuted :
  ~ (forall F (to_int : fp F -> pt) radius join path segs, outline_segments F to_int radius join path = Some segs -> Forall (fun s => sa (sx s) <> sb (sx s)) segs).
Proof.
  intro H. set (path := [(0, 0); (0, 10); (10, 10); (10, 0); (32 # 10, 4 # 10); (35 # 10, 0)]%Q).
  destruct (outline_segments QF q_round (-2)%Q (Bevel QF) path) as [segs|] eqn:E; [|vm_compute in E; discriminate].
  pose proof (H QF q_round (-2)%Q (Bevel QF) path segs E) as A. assert (D : existsb degenerate segs = true) by (vm_compute in E; injection E as <-; reflexivity).
  apply existsb_exists in D as (s & I & D). rewrite Forall_forall in A. apply (A s I). apply pt_eqb_eq. exact D.
Qed.
(** A custom cap whose first point lies on the side of the stroke (as a half circle given with its ends does) gives segments of length zero:
    the caps push their moves without comparing the ends. *)
Theorem C34_degenerate_refuted :
  ~ (forall F (to_int : fp F -> pt) style jc cc closed paths segs, stroke_segments F to_int style jc cc closed paths = Some segs -> Forall (fun s => sa (sx s) <> sb (sx s)) segs).
Proof.
  intro H. set (style := SS QF 4%Q (Butt QF) (Custom QF [(0, -1); (1, 0); (0, 1)]%Q) (Bevel QF)). set (paths := [[(0, 0); (10, 0)]]%Q).
  destruct (stroke_segments QF q_round style 2 5 false paths) as [segs|] eqn:E; [|vm_compute in E; discriminate].
  pose proof (H QF q_round style 2%nat 5%nat false paths segs E) as A. assert (D : existsb degenerate segs = true) by (vm_compute in E; injection E as <-; reflexivity).
  apply existsb_exists in D as (s & I & D). rewrite Forall_forall in A. apply (A s I). apply pt_eqb_eq. exact D.
Qed.
(** Every open path of fewer than two points makes [stroke] panic, and so do empty paths only. *)
Theorem C34_panic_refuted (F : FloatOps) (to_int : fp F -> pt) style jc cc :
  (forall before p after, (length p < 2)%nat -> stroke_segments F to_int style jc cc false (before ++ p :: after) = None) /\
  stroke_segments F to_int style jc cc false [[]] = None /\ stroke_segments F to_int style jc cc true [[]] = None.
Proof.
  split.
  - intros before p after L. unfold stroke_segments. assert (N : concat_opt (map (stroke_build F to_int (stroke_builder_new F to_int style) false) (before ++ p :: after)) = None).
    { rewrite map_app. cbn [map]. assert (P : stroke_build F to_int (stroke_builder_new F to_int style) false p = None).
      { destruct p as [|x [|y p]]; cbn in L; try reflexivity; lia. }
      rewrite P. induction (map _ before) as [|[x|] l IH]; cbn [app concat_opt]; auto. rewrite IH. reflexivity. }
    rewrite N. destruct (before ++ p :: after) eqn:E; [destruct before; discriminate|]. destruct (stroke_capacity _ _ _ _ _); reflexivity.
  - split; unfold stroke_segments, stroke_capacity; cbn [concat app length]; [reflexivity|]. rewrite Nat.mul_0_r. reflexivity.
Qed.
