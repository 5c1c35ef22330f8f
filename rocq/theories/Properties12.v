(** * C44: miters end where the moved sides meet, caps have the shape of their style (exact arithmetic) *)
From Verif Require Import Base Spec ModelSegm SegmProofs ModelMesh MeshProofs MeshStrip ModelRect.
From Coq Require Import Reals Lra Psatz Qreals.
From Verif Require Import RealMesh RealJoin RealReach RealMiter Properties09 Properties11.
Open Scope R_scope.

(** A corner of a stroke with miter joins: on the inner side of the bend the two moved sides are joined directly (on both sides if the path runs almost straight on,
    or back, there); on the outer side they are prolonged to the point where they meet if the bend is at least [a],
    and cut off at [r / tan (a / 2)] otherwise.  The left side is drawn backwards. *)
Definition at_miter (to_int : R * R -> pt) (r a : R) (x y z : R * R) (m : pt * pt) : Prop :=
  let u := dir x y in let v := dir y z in
  let LA := off y (normal_of u) r in let LB := off y (normal_of v) r in
  let RA := off y (neg (normal_of u)) r in let RB := off y (neg (normal_of v)) r in
  (Rabs (cross u v) < 1 / 10000 /\ (m = (to_int LB, to_int LA) \/ m = (to_int RA, to_int RB))) \/
  (0 < cross u v /\ (m = (to_int LB, to_int LA) \/ mitered to_int a r u v RA RB m)) \/
  (cross u v <= 0 /\ (m = (to_int RA, to_int RB) \/ mitered to_int a r u v LA LB (snd m, fst m))).
Lemma follows_ends sides f g : follows_ring RF sides f g -> In f sides /\ In g sides.
Proof.
  intros [(l & m & ->)|(q & -> & ->)].
  - split; apply in_or_app; simpl; auto.
  - split; [|simpl; auto]. destruct q as [|h q]; [simpl; auto|]. right. destruct (exists_last (l := h :: q) ltac:(discriminate)) as (l & w & ->). rewrite last_last. apply in_or_app. simpl; auto.
Qed.
Theorem C44_closed_stroke to_int style a path segs : st_join RF style = MiterJoin RF a -> faithful to_int path ->
  stroke_build RF to_int (stroke_builder_new RF to_int style) true path = Some segs ->
  forall s, In s segs ->
    (exists x y, In (x, y) (ring_sides RF to_int path) /\ on_side to_int (stroke_radius style) x y (travel s)) \/
    (exists x y z, follows_ring RF (ring_sides RF to_int path) (x, y) (y, z) /\ at_miter to_int (stroke_radius style) (miter_angle a) x y z (travel s)).
Proof.
  intros Hj Fa H s I. rewrite builder_real, Hj, normalize_real in H. pose proof (stroke_radius_pos style) as P.
  cbn [stroke_build] in H. rewrite closed_ring in H. cbn [sb_radius sb_join] in H. injection H as <-. apply ring_in in I as [(f & If & I)|(f & g & Fg & I)].
  - left. destruct f as [x y]. exists x, y. split; auto. apply side_of. exact I.
  - right. pose proof (ring_chain RF to_int path f g Fa Fg) as Ch. destruct (follows_ends _ f g Fg) as [If Ig].
    apply ring_sides_in in If as (A & B & D). apply ring_sides_in in Ig as (A' & B' & D').
    destruct f as [x y], g as [y' z]. cbn [fst snd] in *. subst y'. exists x, y, z. split; auto. apply smiter_drawn; auto; intro Q; [apply D|apply D']; rewrite Q; reflexivity.
Qed.
(** The offset of a contour: as above, on the left side, drawn forwards, [radius] negative for the right side; the sides are also joined directly if they end less than two grid units apart. *)
Theorem C44_outline to_int radius a path segs : faithful to_int path -> outline_segments RF to_int radius (join_normalize RF (MiterJoin RF a)) path = Some segs ->
  forall s, In s segs ->
    (exists x y, In (x, y) (ring_sides RF to_int path) /\ travel s = (to_int (off x (normal_of (dir x y)) radius), to_int (off y (normal_of (dir x y)) radius))) \/
    (exists x y z, follows_ring RF (ring_sides RF to_int path) (x, y) (y, z) /\
       let A := off y (normal_of (dir x y)) radius in let B := off y (normal_of (dir y z)) radius in
       (((0 <= radius <-> 0 <= cross (dir x y) (dir y z)) \/ (sqr_distance (to_int A) (to_int B) < 4)%Z) /\ travel s = (to_int A, to_int B)) \/
       (radius * cross (dir x y) (dir y z) <= 0 /\ mitered to_int (miter_angle a) (Rabs radius) (dir x y) (dir y z) A B (travel s))).
Proof.
  intros Fa H s I. rewrite normalize_real in H. unfold outline_segments in H. rewrite outline_ring in H. injection H as <-. apply ring_in in I as [(f & If & I)|(f & g & Fg & I)].
  - left. destruct f as [x y]. exists x, y. split; auto. destruct I as [<-|[]]. rewrite travel_bold. reflexivity.
  - right. pose proof (ring_chain RF to_int path f g Fa Fg) as Ch. destruct (follows_ends _ f g Fg) as [If Ig].
    apply ring_sides_in in If as (A & B & D). apply ring_sides_in in Ig as (A' & B' & D').
    destruct f as [x y], g as [y' z]. cbn [fst snd] in *. subst y'. exists x, y, z. split; auto.
    apply omiter_drawn; auto; intro Q; [apply D|apply D']; rewrite Q; reflexivity.
Qed.

(** Open strokes, every style: first the start cap, then sides and corners, then the end cap.  [place] turns the shape of a cap, drawn for a path that ends in
    the origin coming from the left, into the place of the cap: direction of the path, size half the width. *)
Theorem C44_caps to_int style p0 rest segs : stroke_build RF to_int (stroke_builder_new RF to_int style) false (p0 :: rest) = Some segs ->
  match path_sides RF to_int p0 rest with
  | [] => segs = []
  | (x, y) :: l => exists x' y' mid, last ((x, y) :: l) (x, y) = (x', y') /\
      map travel segs = cap_walk to_int x (neg (dir x y)) (stroke_radius style) (cap_shape (st_start RF style)) ++ map travel mid ++
        cap_walk to_int y' (dir x' y') (stroke_radius style) (cap_shape (st_end RF style)) /\
      forall s, In s mid -> (exists f, In f ((x, y) :: l) /\ on_side to_int (stroke_radius style) (fst f) (snd f) (travel s)) \/
        (exists x y z, follows RF (path_sides RF to_int p0 rest) (x, y) (y, z) /\ x <> y /\ y <> z /\
           In s (stroke_join RF to_int (stroke_radius style) (join_normalize RF (st_join RF style)) (section_new RF (stroke_radius style) x y) (section_new RF (stroke_radius style) y z)))
  end.
Proof.
  intro H. rewrite builder_real in H. pose proof (stroke_radius_pos style) as P. set (r := stroke_radius style) in *.
  cbn [stroke_build] in H. destruct rest as [|p1 rest]; [discriminate|]. rewrite open_strip in H by discriminate. cbn [sb_radius sb_join sb_start sb_end] in H.
  apply (f_equal (fun o => match o with Some l => l | None => segs end)) in H. cbv beta iota in H. symmetry in H.
  assert (Sd : forall f, In f (path_sides RF to_int p0 (p1 :: rest)) -> fst f <> snd f) by (intros f If; apply sides_in in If as (A & B & D); exact (fun Q => D (f_equal to_int Q))).
  assert (Ch : forall f g, follows RF (path_sides RF to_int p0 (p1 :: rest)) f g -> snd f = fst g) by (intros f g; apply sides_chain).
  set (sides := path_sides RF to_int p0 (p1 :: rest)) in *. clearbody sides. destruct sides as [|[x y] l]; [exact H|].
  destruct (last ((x, y) :: l) (x, y)) as [x' y'] eqn:El. match type of H with segs = ?A ++ ?B ++ ?C => set (pre := A) in H; set (mid := B) in H; set (post := C) in H end. exists x', y', mid. split; [reflexivity|].
  assert (E2 : last l (x, y) = (x', y')) by (rewrite <- El; destruct l; reflexivity).
  assert (E3 : map travel pre = cap_walk to_int x (neg (dir x y)) r (cap_shape (st_start RF style))) by (unfold pre; apply start_cap).
  assert (E4 : map travel post = cap_walk to_int y' (dir x' y') r (cap_shape (st_end RF style))) by (unfold post; rewrite E2; apply end_cap).
  rewrite <- E3, <- E4, H, !map_app. split; [reflexivity|]. 
  { intros s I. unfold mid in I. apply strip_in in I as [(f & If & I)|(f & g & Fg & I)].
    + left. exists f. split; auto. apply side_of. exact I.
    + right. pose proof (Ch f g Fg) as E. assert (N : fst f <> snd f /\ fst g <> snd g).
      { destruct Fg as (l1 & l2 & E1). split; apply Sd; rewrite E1; apply in_or_app; simpl; auto. }
      destruct f as [a b], g as [b' c]. cbn [fst snd] in *. subst b'. exists a, b, c. tauto. }
Qed.
(** ... and the corners, with miters *)
Theorem C44_open_stroke to_int style a p0 rest segs : st_join RF style = MiterJoin RF a -> stroke_build RF to_int (stroke_builder_new RF to_int style) false (p0 :: rest) = Some segs ->
  forall x y l, path_sides RF to_int p0 rest = (x, y) :: l -> exists x' y' mid, last ((x, y) :: l) (x, y) = (x', y') /\
    map travel segs = cap_walk to_int x (neg (dir x y)) (stroke_radius style) (cap_shape (st_start RF style)) ++ mid ++
      cap_walk to_int y' (dir x' y') (stroke_radius style) (cap_shape (st_end RF style)) /\
    forall m, In m mid -> (exists f, In f ((x, y) :: l) /\ on_side to_int (stroke_radius style) (fst f) (snd f) m) \/
      (exists x0 y0 z, follows RF ((x, y) :: l) (x0, y0) (y0, z) /\ at_miter to_int (stroke_radius style) (miter_angle a) x0 y0 z m).
Proof.
  intros Hj H x y l Hs. pose proof (C44_caps to_int style p0 rest segs H) as C. rewrite Hs in C. destruct C as (x' & y' & mid & El & Em & Hm).
  exists x', y', (map travel mid). split; auto. split; auto. intros m I. apply in_map_iff in I as (s & <- & I). destruct (Hm s I) as [C|(x0 & y0 & z & Fg & N & N' & C)]; [left; exact C|right].
  exists x0, y0, z. split; auto. rewrite Hj, normalize_real in C. apply smiter_drawn; auto. apply stroke_radius_pos.
Qed.
(** Round caps follow the half circle: the points lie on the circle, the chords outside of the circle of radius [r cos (2/3 a)]. *)
Theorem C44_round_cap a : let n := cap_steps a in
  (4 <= n <= 100)%nat /\ round_angle a <= PI / INR n <= 4 / 3 * round_angle a /\
  let shape := (0, -1) :: cap_shape (RoundCap RF a) ++ [(0, 1)] in
  length shape = S n /\
  forall k, (k < n)%nat -> hugs (0, 0) 1 (2 / 3 * round_angle a) (nth k shape (0, 0)) (nth (S k) shape (0, 0)).
Proof.
  intro n. destruct (cap_steps_range a) as [N A]. fold n in N, A. split; auto. split; auto. intro shape. pose proof (round_range a) as Ra. pose proof PI_RGT_0 as Pi.
  set (pnt := fun k : nat => (sin (INR k * (PI / INR n)), - cos (INR k * (PI / INR n)))).
  assert (Nn : INR n <> 0) by (apply not_0_INR; lia).
  assert (Es : shape = map pnt (seq 0 (S n))).
  { unfold shape, cap_shape. fold n. replace (S n) with (1 + (n - 1) + 1)%nat by lia. rewrite !seq_app, !map_app. cbn [seq map app]. f_equal.
    - unfold pnt. simpl INR. rewrite Rmult_0_l, sin_0, cos_0. f_equal; lra.
    - f_equal. unfold pnt. replace (0 + (1 + (n - 1)))%nat with n by lia. replace (INR n * (PI / INR n)) with PI by (field; auto). rewrite sin_PI, cos_PI. do 2 f_equal; lra. }
  rewrite Es. split; [rewrite map_length, seq_length; reflexivity|]. intros k Hk.
  rewrite !(nth_indep _ (0, 0) (pnt 0%nat)) by (rewrite map_length, seq_length; lia). rewrite !map_nth, !seq_nth by lia. cbn [plus].
  assert (U : forall j, unit (pnt j)) by (intro j; unfold unit, pnt; cbn [fst snd]; pose proof (sc1 (INR j * (PI / INR n))); lra).
  assert (O : forall p, p = off (0, 0) p 1) by (intros [p q]; unfold off; cbn [fst snd]; f_equal; ring).
  rewrite (O (pnt k)), (O (pnt (S k))). rewrite <- Rabs_R1 at 1. apply hugs_intro; auto; [lra|].
  replace (dot (pnt k) (pnt (S k))) with (cos (INR (S k) * (PI / INR n) - INR k * (PI / INR n))) by (unfold dot, pnt; cbn [fst snd]; rewrite cos_minus; ring).
  replace (INR (S k) * (PI / INR n) - INR k * (PI / INR n)) with (PI / INR n) by (rewrite S_INR; ring).
  apply cos_le; lra.
Qed.
(** ** A case that meets the hypotheses (the closed one: [r_path_faithful], [r_path_stroke], [r_path_outline] of Properties11) *)
Lemma r_open_sides : path_sides RF r_round (0, 0) [(10, 0); (10, 10)] = [((0, 0), (10, 0)); ((10, 0), (10, 10))].
Proof. cbn [path_sides]. unfold r_round. cbn [fst snd]. rewrite !int_part_IZR. reflexivity. Qed.
Lemma r_open_stroke style : exists segs, stroke_build RF r_round (stroke_builder_new RF r_round style) false [(0, 0); (10, 0); (10, 10)] = Some segs /\ (2 * 2 <= length segs)%nat.
Proof.
  rewrite builder_real. cbn [stroke_build sb_radius sb_join]. rewrite open_strip by discriminate. eexists. split; [reflexivity|]. rewrite r_open_sides. cbn [strip]. rewrite !app_length. unfold add_section. cbn [length]. lia.
Qed.
Print Assumptions C44_outline.
Print Assumptions C44_closed_stroke.
Print Assumptions C44_open_stroke.
Print Assumptions C44_caps.
Print Assumptions C44_round_cap.
