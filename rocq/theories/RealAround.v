(** * The outline of a contour, stated for the contour itself: its winding number, the pieces along it. *)
From Verif Require Import Base Spec QLib ModelSegm SegmProofs SplitNear ModelMesh MeshProofs MeshStrip.
From Coq Require Import Reals Lra Psatz Qreals.
From Verif Require Import RealMesh RealJoin RealReach RealMiter RealWind RealMove RealCorner RealStroke RealPieces RealCount RealCover RealPath RealRound RealOuter RealShift RealContour RealOffset.
Open Scope R_scope.

(** the edges of the polygon: from every point to the next, from the last to the first *)
Definition closed_steps (path : list rpt) : list (rpt * rpt) := match path with [] => [] | p :: _ => steps (last path p :: path) end.
(** how often the polygon winds counterclockwise around [p] (points on its boundary count as C06 counts them: half open edges) *)
Definition poly_wind (p : rpt) (path : list rpt) : Z := zsum (rwind p) (closed_steps path).

(** ** The pieces along the contour
    The offset moves every side to the left by [k] (to the right if [k] is negative).  [p] is between a side and the moved side, or, at a corner
    that bends away from that side, in the fan of triangles from the vertex to what the join draws. *)
Definition along (to_int : rpt -> pt) (j : line_join RF) (k : R) (path : list rpt) (p : rpt) : Prop :=
  (exists e, In e (sides_of to_int true path) /\ beside k p e) \/
  (exists e f, followed_ring (sides_of to_int true path) e f /\ bends_in k (dir_of e) (dir_of f) = false /\ in_fan p (snd e) (och k to_int j e f)).
(** at corners that bend towards the moved sides, both sides are at least as long as the offset times the sine of the angle *)
Definition long_sides (to_int : rpt -> pt) (k : R) (path : list rpt) : Prop :=
  forall e f, followed_ring (sides_of to_int true path) e f -> bends_in k (dir_of e) (dir_of f) = true ->
    Rabs k * Rabs (cross (dir_of e) (dir_of f)) <= dist (fst e) (snd e) /\ Rabs k * Rabs (cross (dir_of e) (dir_of f)) <= dist (fst f) (snd f).
(** ... and the contour turns there by no more than a right angle *)
Definition gentle_bends (to_int : rpt -> pt) (k : R) (path : list rpt) : Prop :=
  forall e f, followed_ring (sides_of to_int true path) e f -> bends_in k (dir_of e) (dir_of f) = true -> 0 <= dot (dir_of e) (dir_of f).
(** some corner bends away from the moved sides, or is farther away from [p] than the offset *)
Definition off_center (to_int : rpt -> pt) (k : R) (path : list rpt) (p : rpt) : Prop :=
  exists e f, followed_ring (sides_of to_int true path) e f /\ (bends_in k (dir_of e) (dir_of f) = false \/ Rabs k < dist p (snd e)).
(** no vertex is to the right of a side *)
Definition convex_path (to_int : rpt -> pt) (path : list rpt) : Prop := convex (sides_of to_int true path).

Lemma rwind_same p a : rwind p (a, a) = 0%Z.
Proof. pose proof (rwind_anti p a a). lia. Qed.
Lemma path_steps to_int p : forall path prev, (forall x y, In x (prev :: path) -> In y (prev :: path) -> to_int x = to_int y -> x = y) ->
  sides_wind p (path_sides RF to_int prev path) = zsum (rwind p) (steps (prev :: path)).
Proof.
  induction path as [|x path IH]; intros prev Fa; [reflexivity|]. cbn [path_sides]. change (steps (prev :: x :: path)) with ((prev, x) :: steps (x :: path)). rewrite zsum_cons.
  destruct (pt_eqb (to_int x) (to_int prev)) eqn:E.
  - apply pt_eqb_eq in E. apply Fa in E; [|simpl; auto|simpl; auto]. subst x. rewrite rwind_same. rewrite IH; [lia|]. intros a b A B. apply Fa; [destruct A|destruct B]; simpl; auto.
  - unfold sides_wind. rewrite zsum_cons. unfold sides_wind in IH. rewrite IH; [reflexivity|]. intros a b A B. apply Fa; right; auto.
Qed.
Lemma last_in {A} (p : A) : forall l, l <> [] -> In (last l p) l.
Proof. intros l N. destruct (exists_last N) as (l' & x & ->). rewrite last_last. apply in_or_app. simpl; auto. Qed.
Lemma sides_poly to_int p path : faithful to_int path -> sides_wind p (sides_of to_int true path) = poly_wind p path.
Proof.
  intro Fa. destruct path as [|x path]; [reflexivity|]. cbn [sides_of ring_sides]. unfold poly_wind, closed_steps. apply path_steps.
  pose proof (last_in x (x :: path) ltac:(discriminate)) as L. intros a b A B. apply Fa; [destruct A as [<-|A]; auto|destruct B as [<-|B]; auto].
Qed.

Section Around.
  Variables (to_int : rpt -> pt) (j : line_join RF) (k : R) (path : list rpt).
  Hypothesis Nk : k <> 0.
  Hypothesis Fa : faithful to_int path.
  (** the pieces stay within the reach of the join *)
  Lemma along_close p : along to_int j k path p -> close_to (sides_of to_int true path) (join_reach k j) p.
  Proof.
    destruct (sides_facts to_int true path (fun _ => Fa)) as (N & _ & Ch). pose proof (reach_ge k j) as G.
    intros [(e & I & H)|(e & f & F & B & H)].
    - destruct (strip_close e p (N e I) (Rabs k) (Rabs_pos k)) as (t & T & D).
      + apply in_strip_iff. destruct H as [H1 H2]. split; auto. set (c := cross (dir_of e) (vec (fst e) p)) in *. clearbody c. apply Rabs_iff. clear - H2 Nk.
        destruct (Rtotal_order k 0) as [K|[K|K]]; [rewrite Rabs_left by lra|congruence|rewrite Rabs_pos_eq by lra]; nra.
      + exists e, t. split; auto. split; auto. lra.
    - pose proof (followed_ring_in _ _ _ F) as [Ie If]. exists e, 1. split; auto. split; [lra|]. replace (between_pts (fst e) (snd e) 1) with (snd e) by (destruct e as [[a b] [c d]]; unfold between_pts; cbn [fst snd]; f_equal; ring).
      apply (fan_dist p (snd e) _ (join_reach k j)) in H; auto using reach_pos. intros a A. apply (och_reach k to_int j e f); auto.
  Qed.
  Variables (s : R) (o : rpt) (q : qpt) (p : rpt) (segs : list (segment cntO)).
  Hypothesis Ps : 0 < s.
  Hypothesis Pq : rplace s o p = rq q.
  Hypothesis Sn : osnaps to_int j k s o path.
  Hypothesis Drawn : outline_segments RF to_int k (join_normalize RF j) path = Some segs.
  Hypothesis F : far_segs q segs.
  Lemma drawn_ring : segs = MeshStrip.ring RF (fun e : rside => osection_new RF k (fst e) (snd e)) (o_add_section RF to_int) (outline_join RF to_int k (join_normalize RF j)) (sides_of to_int true path).
  Proof. unfold outline_segments in Drawn. rewrite outline_ring in Drawn. injection Drawn as <-. reflexivity. Qed.
  Ltac start := pose proof drawn_ring as E; try rewrite <- (sides_poly to_int p path Fa); destruct (sides_facts to_int true path (fun _ => Fa)) as (N & Ip & Ch); cbn [next_of] in Ch;
    unfold along, long_sides, gentle_bends, off_center, convex_path in *; destruct (sides_of to_int true path) as [|e rest]; rewrite E in F |- *.
  Lemma path_grow_only : k < 0 -> (0 < segs_wind q segs)%Z -> (0 < poly_wind p path)%Z \/ along to_int j k path p.
  Proof. start; [intros _ X; cbn in X; discriminate X|]. apply (grow_only to_int j k Nk e rest N Ch s o q p Ps Pq path Ip Sn F). Qed.
  Lemma path_grow_inside : k < 0 -> long_sides to_int k path -> (0 < poly_wind p path)%Z -> (0 < segs_wind q segs)%Z.
  Proof. start; [intros _ _ X; cbn in X; discriminate X|]. apply (grow_inside to_int j k Nk e rest N Ch s o q p Ps Pq path Ip Sn F). Qed.
  Lemma path_grow_cover : k < 0 -> long_sides to_int k path -> gentle_bends to_int k path -> (forall z, (0 <= poly_wind z path)%Z) -> off_center to_int k path p -> along to_int j k path p -> (0 < segs_wind q segs)%Z.
  Proof.
    intros K L G W Oc A. assert (W' : forall z, (0 <= sides_wind z (sides_of to_int true path))%Z) by (intro z; rewrite sides_poly by auto; auto). revert K L G W' Oc A. clear W. start.
    - intros _ _ _ _ (e & f & Fg & _). apply followed_ring_in in Fg as [[] _].
    - apply (grow_cover to_int j k Nk e rest N Ch s o q p Ps Pq path Ip Sn F).
  Qed.
  Lemma path_shrink_keeps : 0 < k -> (0 < poly_wind p path)%Z -> ~ along to_int j k path p -> (0 < segs_wind q segs)%Z.
  Proof. start; [intros _ X; cbn in X; discriminate X|]. apply (shrink_keeps to_int j k Nk e rest N Ch s o q p Ps Pq path Ip Sn F). Qed.
  Lemma path_shrink_inside : 0 < k -> long_sides to_int k path -> (0 < segs_wind q segs)%Z -> (0 < poly_wind p path)%Z.
  Proof. start; [intros _ _ X; cbn in X; discriminate X|]. apply (shrink_inside to_int j k Nk e rest N Ch s o q p Ps Pq path Ip Sn F). Qed.
  Lemma path_shrink_cover : 0 < k -> long_sides to_int k path -> gentle_bends to_int k path \/ convex_path to_int path -> (forall z, (poly_wind z path <= 1)%Z) -> off_center to_int k path p -> along to_int j k path p -> (segs_wind q segs <= 0)%Z.
  Proof.
    intros K L G W Oc A. assert (W' : forall z, (sides_wind z (sides_of to_int true path) <= 1)%Z) by (intro z; rewrite sides_poly by auto; auto). revert K L G W' Oc A. clear W. start.
    - intros _ _ _ _ (e & f & Fg & _). apply followed_ring_in in Fg as [[] _].
    - apply (shrink_cover to_int j k Nk e rest N Ch s o q p Ps Pq path Ip Sn F).
  Qed.
End Around.
