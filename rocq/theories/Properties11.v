(** * C42, C43: strokes and offsets in exact arithmetic.

    [RF] (RealMesh) is the arithmetic of the real numbers: rounding of the floating point operations is left out here,
    the rounding to the grid ([to_int], any function) is not.  [dist] is the distance of two points. *)
From Verif Require Import Base Spec ModelSegm SegmProofs ModelMesh MeshProofs MeshStrip ModelRect.
From Coq Require Import Reals Lra Psatz Qreals.
From Verif Require Import RealMesh RealJoin RealReach Properties09.
Open Scope R_scope.

(** ** C42 *)
(** Every end of every segment generated for a stroke is the grid point of a point within [stroke_reach] of a vertex of the path:
    half the width for bevel and round joins and butt and round caps, [1 / sin (angle / 2)] times that for miters ([angle] as clamped
    by the style), [sqrt 2] times that for square caps, the longest vector times that for custom caps.
    For a closed path: points of the path that are equal on the grid are equal. *)
Theorem C42_stroke_reach to_int style closed path segs : (closed = true -> faithful to_int path) ->
  stroke_build RF to_int (stroke_builder_new RF to_int style) closed path = Some segs ->
  forall s, In s segs -> forall e, e = sa (sx s) \/ e = sb (sx s) ->
  exists p v, In v path /\ e = to_int p /\ dist p v <= stroke_reach style.
Proof. intros Fa H s I e E. exact (stroke_near to_int style closed path segs Fa H s e I E). Qed.
Theorem C42_outline_reach to_int radius join path segs : faithful to_int path ->
  outline_segments RF to_int radius (join_normalize RF join) path = Some segs ->
  forall s, In s segs -> forall e, e = sa (sx s) \/ e = sb (sx s) ->
  exists p v, In v path /\ e = to_int p /\ dist p v <= join_reach radius join.
Proof. intros Fa H s I e E. exact (outline_near to_int radius join path segs Fa H s e I E). Qed.

(** The rectangle that fixes the scale of the grid contains all these points: *)
Definition in_rect (p : R * R) (q : frect RF) : Prop := fr_minx RF q <= fst p <= fr_maxx RF q /\ fr_miny RF q <= snd p <= fr_maxy RF q.
Lemma n_max_real a b : n_max RF a b = Rmax a b.
Proof. unfold n_max. cbn [RF n_lt]. unfold Rltb, Rmax. destruct (Rlt_dec a b), (Rle_dec a b); try reflexivity; lra. Qed.
Lemma n_min_real a b : n_min RF a b = Rmin a b.
Proof. unfold n_min. cbn [RF n_lt]. unfold Rltb, Rmin. destruct (Rlt_dec b a), (Rle_dec a b); try reflexivity; lra. Qed.
Lemma grow_keep q p v : in_rect v q -> in_rect v (rect_grow RF q p).
Proof.
  unfold in_rect, rect_grow. cbn [fr_minx fr_maxx fr_miny fr_maxy]. rewrite !n_max_real, !n_min_real. intros [[A B] [C D]]. cbn [RF f_x f_y].
  pose proof (Rmin_l (fr_minx RF q) (fst p)). pose proof (Rmax_l (fr_maxx RF q) (fst p)). pose proof (Rmin_l (fr_miny RF q) (snd p)). pose proof (Rmax_l (fr_maxy RF q) (snd p)). lra.
Qed.
Lemma grow_in q p : in_rect p (rect_grow RF q p).
Proof.
  unfold in_rect, rect_grow. cbn [fr_minx fr_maxx fr_miny fr_maxy]. rewrite !n_max_real, !n_min_real. cbn [RF f_x f_y].
  pose proof (Rmin_r (fr_minx RF q) (fst p)). pose proof (Rmax_r (fr_maxx RF q) (fst p)). pose proof (Rmin_r (fr_miny RF q) (snd p)). pose proof (Rmax_r (fr_maxy RF q) (snd p)). lra.
Qed.
Lemma fold_grow : forall l q v, in_rect v q \/ In v l -> in_rect v (fold_left (rect_grow RF) l q).
Proof.
  induction l as [|p l IH]; intros q v H; cbn [fold_left]; [destruct H as [H|[]]; auto|]. apply IH. destruct H as [H|[->|H]]; auto using grow_keep, grow_in.
Qed.
Lemma rect_of_in l q v : rect_of RF l = Some q -> In v l -> in_rect v q.
Proof.
  destruct l as [|p l]; [discriminate|]. intros H I. apply (f_equal (fun o => match o with Some l => l | None => q end)) in H. cbv beta iota in H. rewrite <- H. apply fold_grow. destruct I as [->|I]; auto.
  left. unfold in_rect. cbn [fr_minx fr_maxx fr_miny fr_maxy RF f_x f_y]. lra.
Qed.
Lemma rect_wide l q : rect_of RF l = Some q -> 0 <= rect_width RF q /\ 0 <= rect_height RF q.
Proof.
  intro H. destruct l as [|p l]; [discriminate|]. pose proof (rect_of_in _ _ p H (or_introl eq_refl)) as [[A B] [C D]]. unfold rect_width, rect_height. cbn [RF n_sub]. lra.
Qed.
Lemma cap_offset_pos l : 0 <= cap_offset RF l.
Proof.
  unfold cap_offset, lit. cbn [RF from_f64 d_lit n_add]. destruct l as [l|]; [|rewrite q_0; lra]. destruct (rect_of RF l) as [q|] eqn:E; [|rewrite q_0; lra]. apply rect_wide in E. lra.
Qed.
Lemma rect_near q a p v : in_rect v q -> dist p v <= a -> in_rect p (rect_add RF q a).
Proof.
  intros [[A B] [C D]] H. unfold in_rect, rect_add. cbn [fr_minx fr_maxx fr_miny fr_maxy RF n_sub n_add].
  assert (X : Rabs (fst p - fst v) <= dist p v).
  { rewrite <- sqrt_Rsqr_abs. unfold dist. apply sqrt_le_1_alt. unfold dist2. pose proof (Rle_0_sqr (snd p - snd v)). unfold Rsqr in *. lra. }
  assert (Y : Rabs (snd p - snd v) <= dist p v).
  { rewrite <- sqrt_Rsqr_abs. unfold dist. apply sqrt_le_1_alt. unfold dist2. pose proof (Rle_0_sqr (fst p - fst v)). unfold Rsqr in *. lra. }
  unfold Rabs in X, Y. destruct (Rcase_abs (fst p - fst v)), (Rcase_abs (snd p - snd v)); lra.
Qed.
Lemma rect_all l a p v : In v l -> dist p v <= a -> in_rect p (rect_add RF (match rect_of RF l with Some q => q | None => rect_zero RF end) a).
Proof. intros I D. destruct (rect_of RF l) as [q|] eqn:Q; [|destruct l; [destruct I|discriminate]]. apply (rect_near q a p v); auto. eapply rect_of_in; eauto. Qed.
Definition custom (c : line_cap RF) : Prop := match c with Custom _ _ => True | _ => False end.
Lemma miter_offset_real a r : miter_offset RF (miter_angle a) r = 11 / 10 * join_reach r (MiterJoin RF a).
Proof.
  unfold miter_offset. cbv zeta. cbn [RF to_f64 from_f64 d_max d_lit d_tan d_mul d_div d_add d_sqrt]. rewrite fixed_real, q_1_2, q_11_10. f_equal.
  replace (/ 2 * miter_angle a) with (miter_angle a / 2) by lra. rewrite (miter_len a r _ eq_refl). apply sqrt_square. apply reach_pos.
Qed.
Lemma square_offset r : 0 <= r -> cap_offset RF (Some (square_points RF r)) = 2 * r.
Proof.
  intro H. unfold cap_offset, square_points, rect_of, rect_width, rect_height. cbn [fold_left rect_grow fr_minx fr_maxx fr_miny fr_maxy]. rewrite !n_max_real, !n_min_real. cbn [RF n_neg n_sub n_add f_xy f_x f_y fst snd].
  rewrite (Rmax_left r r), (Rmin_left r r), (Rmax_right (- r) r), (Rmin_left (- r) r) by lra. match goal with |- ?a = ?b => change (@eq R a b) end. ring.
Qed.
Lemma reach_offset style : ~ custom (st_start RF style) -> ~ custom (st_end RF style) -> stroke_reach style <= stroke_offset RF style (/ 2 * st_width RF style).
Proof.
  intros Cs Ce. unfold stroke_offset. cbv zeta. cbn [RF from_f64 to_f64 d_mul d_max d_lit]. rewrite q_1_2, q_0.
  replace (/ 2 * Rmax (st_width RF style) 0) with (stroke_radius style) by (unfold stroke_radius; lra). rewrite !n_max_real.
  pose proof (stroke_radius_pos style) as P. unfold stroke_reach.
  set (jo := stroke_join_offset RF _ _ _). set (so := cap_offset RF (cap_points RF (cap_normalize RF (st_start RF style)) _)). set (eo := cap_offset RF (cap_points RF (cap_normalize RF (st_end RF style)) _)).
  assert (So : 0 <= so) by apply cap_offset_pos. assert (Eo : 0 <= eo) by apply cap_offset_pos.
  assert (J : join_reach (stroke_radius style) (st_join RF style) <= Rmax jo (Rmax so eo)).
  { unfold jo. rewrite normalize_real.
    assert (B : stroke_radius style <= Rmax (11 / 10 * (/ 2 * st_width RF style)) (Rmax so eo)).
    { unfold stroke_radius. unfold Rmax at 1. destruct (Rle_dec (st_width RF style) 0); [replace (0 / 2) with 0 by lra; eapply Rle_trans; [|apply Rmax_r]; eapply Rle_trans; [|apply Rmax_l]; auto|].
      eapply Rle_trans; [|apply Rmax_l]. lra. }
    destruct (st_join RF style) as [|a|a]; cbn [stroke_join_offset join_reach].
    - rewrite Rabs_pos_eq by auto. unfold lit. cbn [RF from_f64 d_lit n_mul]. rewrite q_11_10. exact B.
    - eapply Rle_trans; [|apply Rmax_l]. cbn [RF to_f64]. rewrite miter_offset_real. pose proof (reach_pos (stroke_radius style) (MiterJoin RF a)) as Q. cbn [join_reach] in *. lra.
    - rewrite Rabs_pos_eq by auto. unfold lit. cbn [RF from_f64 d_lit n_mul]. rewrite q_11_10. exact B. }
  assert (Jr : stroke_radius style <= Rmax jo (Rmax so eo)).
  { eapply Rle_trans; [|exact J]. pose proof (reach_ge (stroke_radius style) (st_join RF style)) as G. rewrite Rabs_pos_eq in G by auto. exact G. }
  assert (Sq : forall o, o = 2 * stroke_radius style -> o <= Rmax jo (Rmax so eo) -> sqrt 2 * stroke_radius style <= Rmax jo (Rmax so eo)).
  { intros o -> L. eapply Rle_trans; [|exact L]. apply Rmult_le_compat_r; auto. rewrite <- (sqrt_square 2) at 2 by lra. apply sqrt_le_1_alt. lra. }
  apply Rmax_lub; [exact J|]. apply Rmax_lub.
  - unfold so in *. destruct (st_start RF style) as [|a| |l]; cbn [cap_reach]; auto; [|destruct Cs; exact I].
    apply (Sq so); [|eapply Rle_trans; [|apply Rmax_r]; apply Rmax_l]. unfold so. cbn [cap_normalize cap_points]. apply square_offset; auto.
  - unfold eo in *. destruct (st_end RF style) as [|a| |l]; cbn [cap_reach]; auto; [|destruct Ce; exact I].
    apply (Sq eo); [|eapply Rle_trans; [|apply Rmax_r]; apply Rmax_r]. unfold eo. cbn [cap_normalize cap_points]. apply square_offset; auto.
Qed.
Lemma concat_opt_in {A} (f : list (R * R) -> option (list A)) : forall paths segs, concat_opt (map f paths) = Some segs -> forall s, In s segs -> exists path l, In path paths /\ f path = Some l /\ In s l.
Proof.
  induction paths as [|p paths IH]; intros segs H s I; cbn [map concat_opt] in H; [injection H as <-; destruct I|].
  destruct (f p) as [l|] eqn:E; [|discriminate]. destruct (concat_opt (map f paths)) as [m|] eqn:M; [|discriminate]. cbn [option_map] in H. injection H as <-.
  apply in_app_or in I as [I|I]; [exists p, l; simpl; auto|]. destruct (IH m eq_refl s I) as (path & l' & Ip & X). exists path, l'. split; [right; exact Ip|exact X].
Qed.
(** Strokes, for every cap but the custom ones. *)
Theorem C42_stroke_rect to_int style jc cc closed paths segs : ~ custom (st_start RF style) -> ~ custom (st_end RF style) ->
  (closed = true -> Forall (faithful to_int) paths) -> stroke_segments RF to_int style jc cc closed paths = Some segs ->
  forall s, In s segs -> forall e, e = sa (sx s) \/ e = sb (sx s) -> exists p, e = to_int p /\ in_rect p (stroke_rect RF style paths).
Proof.
  intros Cs Ce Fa H s I e E. unfold stroke_segments in H. destruct paths as [|p0 paths0]; [injection H as <-; destruct I|]. set (paths := p0 :: paths0) in *.
  destruct (stroke_capacity _ _ _ _ _); [|discriminate]. destruct (concat_opt_in _ _ _ H s I) as (path & l & Ip & Hl & Il).
  destruct (C42_stroke_reach to_int style closed path l) with (s := s) (e := e) as (p & v & Iv & Ee & D); auto.
  { intro C. specialize (Fa C). rewrite Forall_forall in Fa. auto. }
  exists p. split; auto. unfold stroke_rect. cbv zeta. assert (Ic : In v (concat paths)) by (apply in_concat; eauto).
  apply (rect_all _ _ p v Ic). eapply Rle_trans; [exact D|]. cbn [RF from_f64 to_f64 d_mul d_lit]. rewrite q_1_2. apply reach_offset; auto.
Qed.
(** Offsets: [outline] builds the offset of a path with radius [- outer], or of a reversed path with radius [inner]. *)
Theorem C42_outline_rect to_int outer inner join paths radius path segs : (radius = - outer \/ radius = inner) -> incl path (concat paths) -> faithful to_int path ->
  outline_segments RF to_int radius (join_normalize RF join) path = Some segs ->
  forall s, In s segs -> forall e, e = sa (sx s) \/ e = sb (sx s) -> exists p, e = to_int p /\ in_rect p (outline_rect RF outer inner join paths).
Proof.
  intros Hr Sub Fa H s I e E. destruct (C42_outline_reach to_int radius join path segs Fa H s I e E) as (p & v & Iv & Ee & D).
  exists p. split; auto. unfold outline_rect. cbv zeta. assert (Ic : In v (concat paths)) by auto.
  apply (rect_all _ _ p v Ic). eapply Rle_trans; [exact D|]. cbn [RF n_add n_abs n_neg]. rewrite normalize_real.
  assert (O : forall built arg, Rabs built = Rabs arg -> join_reach built join <= Rabs (outline_join_offset RF built (match join with Bevel _ => Bevel RF | MiterJoin _ a => MiterJoin RF (miter_angle a) | RoundJoin _ a => RoundJoin RF (round_angle a) end) arg)).
  { intros built arg Ea. destruct join as [|a|a]; cbn [outline_join_offset join_reach].
    - unfold lit. cbn [RF from_f64 d_lit n_mul]. rewrite q_11_10, Rabs_mult, Ea, (Rabs_pos_eq (11 / 10)) by lra. pose proof (Rabs_pos arg). lra.
    - cbn [RF to_f64 d_abs]. rewrite miter_offset_real. unfold join_reach. rewrite Rabs_Rabsolu. pose proof (reach_pos built (MiterJoin RF a)) as P. unfold join_reach in P. set (m := Rabs built / sin (miter_angle a / 2)) in *. rewrite (Rabs_pos_eq (11 / 10 * m)) by lra. lra.
    - unfold lit. cbn [RF from_f64 d_lit n_mul]. rewrite q_11_10, Rabs_mult, Ea, (Rabs_pos_eq (11 / 10)) by lra. pose proof (Rabs_pos arg). lra. }
  pose proof (O (- outer) outer (Rabs_Ropp outer)) as O1. pose proof (O inner inner eq_refl) as O2.
  pose proof (reach_pos (- outer) join). pose proof (reach_pos inner join). destruct Hr as [-> | ->]; lra.
Qed.

(** A custom cap may reach out of that rectangle, which only looks at the width and the height of the cap: the cap made of the single point [(5, 0)],
    a tip five radii ahead of the path.  (Exact rational arithmetic, grid of size 1.) *)
Definition tip_style : stroke_style QF := SS QF 4%Q (Butt QF) (Custom QF [(5, 0)%Q]) (Bevel QF).
Definition tip_path : list (Q * Q) := [(0, 0)%Q; (10, 0)%Q].
Theorem C42_custom_cap_refuted :
  exists segs s, stroke_segments QF q_round tip_style 2 3 false [tip_path] = Some segs /\ In s segs /\
    (sa (sx s) = Pt 20 0 \/ sb (sx s) = Pt 20 0) /\
    (fr_maxx QF (stroke_rect QF tip_style [tip_path]) < 19)%Q /\
    forall p, q_round p = Pt 20 0 -> (fr_maxx QF (stroke_rect QF tip_style [tip_path]) < fst p)%Q.
Proof.
  eexists. exists (bold_ab (Pt 10 (-2)) (Pt 20 0)). split; [vm_compute; reflexivity|]. split; [vm_compute; tauto|]. split; [vm_compute; auto|]. split; [vm_compute; reflexivity|].
  intros p H. apply (f_equal px) in H. cbn [q_round px] in H. assert (L : (inject_Z 20 <= fst p + (1 # 2))%Q) by (rewrite <- H; apply Qround.Qfloor_le).
  eapply QArith_base.Qlt_le_trans with (y := (inject_Z 20 - (1 # 2))%Q); [vm_compute; reflexivity|].
  apply (Qplus_le_l _ _ (1 # 2)%Q). eapply Qle_trans; [|exact L]. vm_compute. discriminate.
Qed.

(** ** C43 *)
(** Round joins.  [off p d r] is [p + r d], [normal_of] turns a direction by a quarter to the left, [dir x y] is the unit vector from [x] to [y].
    Every segment drawn for a stroke with round joins is a side of the path moved by the radius to its left (drawn backwards) or to its right, or belongs to a cap,
    or to a corner at [y] between consecutive sides [x], [y] and [y], [z]: there it either joins the two moved sides on the inner side of the bend, or
    runs between two points of the circle of that radius around [y] and stays outside of the circle of radius [r cos (3/4 a)],
    where [a] is the angle of the style, clamped to [PI / 100 .. PI / 4].  *)
Definition at_corner (to_int : R * R -> pt) (r a : R) (x y z : R * R) (m : pt * pt) : Prop :=
  (exists p p', hugs y r (3 / 4 * a) p p' /\ m = (to_int p, to_int p')) \/
  (0 < cross (dir x y) (dir y z) /\ m = (to_int (off y (normal_of (dir y z)) r), to_int (off y (normal_of (dir x y)) r))) \/
  (cross (dir x y) (dir y z) <= 0 /\ m = (to_int (off y (neg (normal_of (dir x y))) r), to_int (off y (neg (normal_of (dir y z))) r))).
Definition on_side (to_int : R * R -> pt) (r : R) (x y : R * R) (m : pt * pt) : Prop :=
  m = (to_int (off y (normal_of (dir x y)) r), to_int (off x (normal_of (dir x y)) r)) \/
  m = (to_int (off x (neg (normal_of (dir x y))) r), to_int (off y (neg (normal_of (dir x y))) r)).
Lemma corner_of to_int r a x y z s : x <> y -> y <> z -> 0 <= r ->
  In s (stroke_join RF to_int r (RoundJoin RF (round_angle a)) (section_new RF r x y) (section_new RF r y z)) -> at_corner to_int r (round_angle a) x y z (travel s).
Proof.
  intros Nx Nz P H. apply (sround_drawn to_int x y z r Nx Nz) in H. rewrite Rabs_pos_eq in H by auto. unfold at_corner.
  destruct H as [(p & p' & Hg & ->)|[[C ->]|[C ->]]]; rewrite travel_bold; [left; eauto|right; left; auto|right; right; auto].
Qed.
Lemma side_of to_int r x y s : In s (add_section RF to_int (section_new RF r x y)) -> on_side to_int r x y (travel s).
Proof. rewrite section_real. unfold add_section. cbn [s_atop s_btop s_abot s_bbot]. unfold on_side. intros [<-|[<-|[]]]; rewrite travel_bold; auto. Qed.
Theorem C43_closed_stroke to_int style a path segs : st_join RF style = RoundJoin RF a -> faithful to_int path ->
  stroke_build RF to_int (stroke_builder_new RF to_int style) true path = Some segs ->
  forall s, In s segs ->
    (exists x y, In (x, y) (ring_sides RF to_int path) /\ on_side to_int (stroke_radius style) x y (travel s)) \/
    (exists x y z, follows_ring RF (ring_sides RF to_int path) (x, y) (y, z) /\ at_corner to_int (stroke_radius style) (round_angle a) x y z (travel s)).
Proof.
  intros Hj Fa H s I. rewrite builder_real, Hj, normalize_real in H. pose proof (stroke_radius_pos style) as P.
  cbn [stroke_build] in H. rewrite closed_ring in H. cbn [sb_radius sb_join] in H. injection H as <-. apply ring_in in I as [(f & If & I)|(f & g & Fg & I)].
  - left. destruct f as [x y]. exists x, y. split; auto. apply side_of. exact I.
  - right. pose proof (ring_chain RF to_int path f g Fa Fg) as Ch.
    assert (If : In f (ring_sides RF to_int path) /\ In g (ring_sides RF to_int path)).
    { destruct Fg as [(l & m & ->)|(q & -> & ->)].
      - split; apply in_or_app; simpl; auto.
      - split; [|simpl; auto]. destruct q as [|h q]; [simpl; auto|]. right. destruct (exists_last (l := h :: q) ltac:(discriminate)) as (l & w & ->). rewrite last_last. apply in_or_app. simpl; auto. }
    destruct If as [If Ig]. apply ring_sides_in in If as (A & B & D). apply ring_sides_in in Ig as (A' & B' & D').
    destruct f as [x y], g as [y' z]. cbn [fst snd] in *. subst y'. exists x, y, z. split; auto. apply corner_of; auto; intro Q; [apply D|apply D']; rewrite Q; reflexivity.
Qed.
Theorem C43_open_stroke to_int style a p0 rest segs : st_join RF style = RoundJoin RF a ->
  stroke_build RF to_int (stroke_builder_new RF to_int style) false (p0 :: rest) = Some segs ->
  let sides := path_sides RF to_int p0 rest in
  let near v d e := exists p, e = to_int p /\ dist p v <= d in
  forall s, In s segs ->
    (exists x y, In (x, y) sides /\ on_side to_int (stroke_radius style) x y (travel s)) \/
    (exists x y z, follows RF sides (x, y) (y, z) /\ at_corner to_int (stroke_radius style) (round_angle a) x y z (travel s)) \/
    (exists x y l, sides = (x, y) :: l /\ forall e, e = fst (travel s) \/ e = snd (travel s) -> near x (cap_reach (stroke_radius style) (st_start RF style)) e) \/
    (exists x y l, sides = l ++ [(x, y)] /\ forall e, e = fst (travel s) \/ e = snd (travel s) -> near y (cap_reach (stroke_radius style) (st_end RF style)) e).
Proof.
  intros Hj H sides near s I. rewrite builder_real, Hj, normalize_real in H. pose proof (stroke_radius_pos style) as P. set (r := stroke_radius style) in *.
  assert (Et : forall s e, e = fst (travel s) \/ e = snd (travel s) -> ends s e) by (intros s0 e; unfold travel, ends; destruct (osubj (sc s0) =? 1)%Z; cbn [fst snd]; tauto).
  cbn [stroke_build] in H. destruct rest as [|p1 rest]; [discriminate|]. rewrite open_strip in H by discriminate. cbn [sb_radius sb_join sb_start sb_end] in H. fold sides in H.
  apply (f_equal (fun o => match o with Some l => l | None => segs end)) in H. cbv beta iota in H. rewrite <- H in I. clear H segs.
  assert (Sd : forall f, In f sides -> fst f <> snd f) by (intros f If; apply sides_in in If as (A & B & D); exact (fun Q => D (f_equal to_int Q))).
  assert (Ch : forall f g, follows RF sides f g -> snd f = fst g) by (intros f g; apply sides_chain).
  clearbody sides. destruct sides as [|f0 r0]; [destruct I|]. apply in_app_or in I as [I|I]; [|apply in_app_or in I as [I|I]].
  - right. right. left. destruct f0 as [x y]. exists x, y, r0. split; auto. intros e E. apply Et in E. pose proof (Sd (x, y) (or_introl eq_refl)) as N. cbn [fst snd] in N. pose proof (dir_unit _ _ N) as U. pose proof (unit_normal _ U) as Un.
    rewrite section_real in I. unfold add_to_start in I. cbn [s_dir s_a s_atop s_abot fst snd] in I.
    eapply (cap_loop_near to_int (neg (dir x y))); [apply unit_neg; auto| | | |exact I|exact E].
    + apply cap_points_size; auto.
    + apply near_off; auto. rewrite Rabs_pos_eq by auto. apply cap_reach_ge; auto.
    + apply near_off; auto using unit_neg. rewrite Rabs_pos_eq by auto. apply cap_reach_ge; auto.
  - apply strip_in in I as [(f & If & I)|(f & g & Fg & I)].
    + left. destruct f as [x y]. exists x, y. split; auto. apply side_of. exact I.
    + right. left. pose proof (Ch f g Fg) as E. pose proof Fg as Fg'. destruct Fg as (l & m & El). pose proof (Sd f) as N. pose proof (Sd g) as N'. rewrite El in N, N'.
      specialize (N ltac:(apply in_or_app; simpl; auto)). specialize (N' ltac:(apply in_or_app; simpl; auto)). destruct f as [x y], g as [y' z]. cbn [fst snd] in *. subst y'. exists x, y, z. split; auto. apply corner_of; auto.
  - right. right. right. destruct (exists_last (l := f0 :: r0) ltac:(discriminate)) as (l & f & El).
    assert (Ef : last r0 f0 = f) by (change (last r0 f0) with (last r0 f0); destruct r0 as [|h q]; [destruct l as [|? [|]]; injection El; auto; discriminate|]; replace (last (h :: q) f0) with (last (f0 :: h :: q) f0) by reflexivity; rewrite El; apply last_last).
    rewrite Ef in I. pose proof (Sd f ltac:(rewrite El; apply in_or_app; simpl; auto)) as N. destruct f as [x y]. exists x, y, l. split; auto. intros e E. apply Et in E. cbn [fst snd] in *. pose proof (dir_unit _ _ N) as U. pose proof (unit_normal _ U) as Un.
    rewrite section_real in I. unfold add_to_end in I. cbn [s_dir s_b s_btop s_bbot fst snd] in I.
    eapply (cap_loop_near to_int (dir x y)); [auto| | | |exact I|exact E].
    + apply cap_points_size; auto.
    + apply near_off; auto using unit_neg. rewrite Rabs_pos_eq by auto. apply cap_reach_ge; auto.
    + apply near_off; auto. rewrite Rabs_pos_eq by auto. apply cap_reach_ge; auto.
Qed.
(** The same for the offset of a contour, whose radius may be negative: sides to the left, drawn forwards. *)
Theorem C43_outline to_int radius a path segs : faithful to_int path -> outline_segments RF to_int radius (join_normalize RF (RoundJoin RF a)) path = Some segs ->
  forall s, In s segs ->
    (exists x y, In (x, y) (ring_sides RF to_int path) /\ travel s = (to_int (off x (normal_of (dir x y)) radius), to_int (off y (normal_of (dir x y)) radius))) \/
    (exists x y z, follows_ring RF (ring_sides RF to_int path) (x, y) (y, z) /\
       ((exists p p', hugs y (Rabs radius) (3 / 4 * round_angle a) p p' /\ travel s = (to_int p, to_int p')) \/
        ((0 <= radius <-> 0 <= cross (dir x y) (dir y z)) /\ travel s = (to_int (off y (normal_of (dir x y)) radius), to_int (off y (normal_of (dir y z)) radius))))).
Proof.
  intros Fa H s I. rewrite normalize_real in H. unfold outline_segments in H. rewrite outline_ring in H. injection H as <-. apply ring_in in I as [(f & If & I)|(f & g & Fg & I)].
  - left. destruct f as [x y]. exists x, y. split; auto. destruct I as [<-|[]]. rewrite travel_bold. reflexivity.
  - right. pose proof (ring_chain RF to_int path f g Fa Fg) as Ch.
    assert (If : In f (ring_sides RF to_int path) /\ In g (ring_sides RF to_int path)).
    { destruct Fg as [(l & m & ->)|(q & -> & ->)].
      - split; apply in_or_app; simpl; auto.
      - split; [|simpl; auto]. destruct q as [|h q]; [simpl; auto|]. right. destruct (exists_last (l := h :: q) ltac:(discriminate)) as (l & w & ->). rewrite last_last. apply in_or_app. simpl; auto. }
    destruct If as [If Ig]. apply ring_sides_in in If as (A & B & D). apply ring_sides_in in Ig as (A' & B' & D').
    destruct f as [x y], g as [y' z]. cbn [fst snd] in *. subst y'. exists x, y, z. split; auto.
    apply (oround_drawn to_int x y z radius) in I; auto; intro Q; [apply D|apply D']; rewrite Q; reflexivity.
Qed.

(** ** A case that meets the hypotheses: a triangle, the grid of size 1, every style *)
Definition r_round (p : R * R) : pt := Pt (Int_part (fst p)) (Int_part (snd p)).
Definition r_path : list (R * R) := [(0, 0); (10, 0); (10, 10)].
Lemma int_part_IZR z : Int_part (IZR z) = z.
Proof. unfold Int_part. rewrite <- (tech_up (IZR z) (z + 1)); [lia| |]; rewrite plus_IZR; lra. Qed.
Lemma r_path_faithful : faithful r_round r_path.
Proof.
  intros p q Hp Hq E. assert (F : forall p, In p r_path -> p = (IZR (px (r_round p)), IZR (py (r_round p)))).
  { intros v [<-|[<-|[<-|[]]]]; unfold r_round; cbn [fst snd px py]; rewrite !int_part_IZR; reflexivity. }
  rewrite (F p Hp), (F q Hq), E. reflexivity.
Qed.
Lemma r_path_sides : ring_sides RF r_round r_path = [((10, 10), (0, 0)); ((0, 0), (10, 0)); ((10, 0), (10, 10))].
Proof. unfold ring_sides, r_path. cbn [last path_sides]. unfold r_round. cbn [fst snd]. rewrite !int_part_IZR. reflexivity. Qed.
(** All three sides are drawn, twice for a stroke and once for an offset, whatever the style. *)
Lemma r_path_stroke style : exists segs, stroke_build RF r_round (stroke_builder_new RF r_round style) true r_path = Some segs /\ (3 * 2 <= length segs)%nat.
Proof.
  rewrite builder_real. cbn [stroke_build sb_radius sb_join]. rewrite closed_ring, r_path_sides. eexists. split; [reflexivity|]. unfold ring. cbn [strip]. rewrite !app_length. unfold add_section. cbn [length]. lia.
Qed.
Lemma r_path_outline radius join : exists segs, outline_segments RF r_round radius (join_normalize RF join) r_path = Some segs /\ (3 <= length segs)%nat.
Proof.
  unfold outline_segments. rewrite outline_ring, r_path_sides. eexists. split; [reflexivity|]. unfold ring. cbn [strip]. rewrite !app_length. unfold o_add_section. cbn [length]. lia.
Qed.

Print Assumptions C42_outline_rect.
Print Assumptions C42_stroke_rect.
Print Assumptions C42_custom_cap_refuted.
Print Assumptions C43_closed_stroke.
Print Assumptions C43_open_stroke.
Print Assumptions C43_outline.
