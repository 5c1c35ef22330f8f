(** * A stroke of one or several paths covers the union of its pieces. *)
From Verif Require Import Base Spec QLib ModelSegm SegmProofs SplitNear ModelMesh MeshProofs MeshStrip.
From Coq Require Import Reals Lra Psatz Qreals.
From Verif Require Import RealMesh RealJoin RealReach RealMiter RealWind RealMove RealCorner RealStroke RealPieces RealCount RealCover.
Open Scope R_scope.

(** the sides of a path: between consecutive points that differ on the grid; a closed path also has a side from its last point to its first *)
Definition sides_of (to_int : rpt -> pt) (closed : bool) (path : list rpt) : list rside :=
  if closed then ring_sides RF to_int path else match path with [] => [] | p0 :: rest => path_sides RF to_int p0 rest end.
Definition next_of (closed : bool) (sides : list rside) : rside -> rside -> Prop := if closed then followed_ring sides else followed sides.
(** the point belongs to one of the pieces of the stroke of the path *)
Definition covered (to_int : rpt -> pt) (style : stroke_style RF) (closed : bool) (path : list rpt) (p : rpt) : Prop :=
  sides_cover to_int style (next_of closed (sides_of to_int closed path)) (sides_of to_int closed path) p \/ (closed = false /\ caps_cover style (sides_of to_int closed path) p).
(** no bend is sharper than its two sides are long *)
Definition no_short_sides (to_int : rpt -> pt) (style : stroke_style RF) (closed : bool) (path : list rpt) : Prop :=
  long_enough style (next_of closed (sides_of to_int closed path)).
(** closed paths only: one of the vertices is farther away than half the width *)
Definition not_central (to_int : rpt -> pt) (style : stroke_style RF) (closed : bool) (path : list rpt) (p : rpt) : Prop :=
  closed = true -> sides_of to_int closed path = [] \/ exists f, In f (sides_of to_int closed path) /\ stroke_radius style < dist p (snd f).

Section Path.
  Variables (to_int : rpt -> pt) (style : stroke_style RF).
  Notation r := (stroke_radius style).
  Hypothesis Pr : 0 < r.
  Variables (s : R) (o : rpt) (q : qpt) (p : rpt).
  Hypothesis Ps : 0 < s.
  Hypothesis Pq : rplace s o p = rq q.
  Lemma sides_facts closed path : (closed = true -> faithful to_int path) ->
    (forall f, In f (sides_of to_int closed path) -> fst f <> snd f) /\ (forall f, In f (sides_of to_int closed path) -> In (fst f) path /\ In (snd f) path) /\
    (forall f g, next_of closed (sides_of to_int closed path) f g -> snd f = fst g).
  Proof.
    intro Fa. destruct closed; cbn [sides_of next_of].
    - split; [|split]; intros.
      + destruct (ring_sides_in RF to_int path f H) as (A & B & D). exact (fun E => D (f_equal to_int E)).
      + destruct (ring_sides_in RF to_int path f H) as (A & B & D). auto.
      + apply (ring_chain RF to_int path f g (Fa eq_refl)). exact H.
    - destruct path as [|p0 rest]; [split; [intros f []|split; [intros f []|]]; intros f g (l & m & H); destruct l; discriminate|].
      split; [|split]; intros.
      + destruct (sides_in RF to_int p0 rest f H) as (A & B & D). exact (fun E => D (f_equal to_int E)).
      + destruct (sides_in RF to_int p0 rest f H) as (A & B & D). split; auto. right. auto.
      + apply (sides_chain RF to_int p0 rest f g). exact H.
  Qed.
  Lemma nil_uncovered closed path : sides_of to_int closed path = [] -> ~ covered to_int style closed path p.
  Proof.
    unfold covered. intros -> [[(e & [] & _)|(e & f & H & _)]|(-> & [(e & l & H & _)|(e & l & H & _)])]; try discriminate; [|destruct l; discriminate].
    destruct closed; cbn [next_of] in H; [destruct H as [(l & m & H)|(l & H & _)]; [destruct l|]; discriminate|destruct H as (l & m & H); destruct l; discriminate].
  Qed.
  Notation sec := (fun e : rside => section_new RF r (fst e) (snd e)).
  Notation joinf := (stroke_join RF to_int r (join_normalize RF (st_join RF style))).
  Definition drawn_of (sides : list rside) : list (segment cntO) :=
    match sides with
    | [] => []
    | e :: rest => add_to_start RF to_int (cap_points RF (cap_normalize RF (st_start RF style)) r) (sec e) ++ strip RF sec (add_section RF to_int) joinf e rest ++ add_to_end RF to_int (cap_points RF (cap_normalize RF (st_end RF style)) r) (sec (last rest e))
    end.
  Lemma path_drawn closed path segs : stroke_build RF to_int (stroke_builder_new RF to_int style) closed path = Some segs ->
    segs = if closed then MeshStrip.ring RF sec (add_section RF to_int) joinf (sides_of to_int closed path) else drawn_of (sides_of to_int closed path).
  Proof.
    rewrite builder_real. destruct closed; cbn [stroke_build].
    - rewrite closed_ring. cbn [sb_radius sb_join]. intro H. injection H as <-. reflexivity.
    - destruct path as [|p0 [|p1 rest]]; [discriminate|discriminate|]. rewrite open_strip by discriminate. cbn [sb_radius sb_join sb_start sb_end]. intro H. assert (K : forall (A : Type) (x y : A), Some x = Some y -> y = x) by (intros A x y X; inversion X; auto). apply K in H. rewrite H. unfold sides_of. set (l := path_sides RF to_int p0 (p1 :: rest)). clearbody l. destruct l as [|e l]; reflexivity.
  Qed.
  Lemma path_only closed path segs : snaps to_int style s o path -> (closed = true -> faithful to_int path) -> (closed = false -> cap_left (st_start RF style) /\ cap_left (st_end RF style)) ->
    stroke_build RF to_int (stroke_builder_new RF to_int style) closed path = Some segs -> far_segs q segs ->
    (0 < segs_wind q segs)%Z -> covered to_int style closed path p.
  Proof.
    intros Sn Fa Cl H F W. apply path_drawn in H. destruct (sides_facts closed path Fa) as (N & Ip & Ch). unfold covered.
    destruct closed.
    - left. cbn [next_of] in *. destruct (sides_of to_int true path) as [|e rest]; subst segs; [cbn in W; discriminate W|].
      apply (closed_sides_only to_int style Pr s o q p Ps Pq path e rest N Ip Sn Ch F W).
    - cbn [next_of] in *. destruct (sides_of to_int false path) as [|e rest]; subst segs; [cbn in W; discriminate W|]. destruct (Cl eq_refl) as [L0 L1].
      destruct (open_sides_only to_int style Pr s o q p Ps Pq path e rest N Ip Sn Ch L0 L1 F W); auto.
  Qed.
  Lemma path_all closed path segs : snaps to_int style s o path -> (closed = true -> faithful to_int path) -> (closed = false -> cap_left (st_start RF style) /\ cap_left (st_end RF style)) ->
    stroke_build RF to_int (stroke_builder_new RF to_int style) closed path = Some segs -> far_segs q segs ->
    no_short_sides to_int style closed path -> not_central to_int style closed path p ->
    (0 <= segs_wind q segs)%Z /\ (covered to_int style closed path p -> (0 < segs_wind q segs)%Z).
  Proof.
    intros Sn Fa Cl H F Lo Nc. apply path_drawn in H. destruct (sides_facts closed path Fa) as (N & Ip & Ch). pose proof (nil_uncovered closed path) as Nu. unfold covered, no_short_sides, not_central in *.
    destruct closed.
    - cbn [next_of] in *. destruct (sides_of to_int true path) as [|e rest]; subst segs; [split; [apply Z.le_refl|intro X; destruct (Nu eq_refl X)]|].
      destruct (Nc eq_refl) as [X|X]; [discriminate|]. destruct (closed_sides to_int style Pr s o q p Ps Pq path e rest N Ip Sn Ch Lo X F) as [A B]. split; auto. intros [Y|[Y _]]; [apply B; auto|discriminate].
    - cbn [next_of] in *. destruct (sides_of to_int false path) as [|e rest]; subst segs; [split; [apply Z.le_refl|intro X; destruct (Nu eq_refl X)]|]. destruct (Cl eq_refl) as [L0 L1].
      destruct (open_sides to_int style Pr s o q p Ps Pq path e rest N Ip Sn Ch Lo L0 L1 F) as [A B]. split; auto. intros [Y|[_ Y]]; apply B; auto.
  Qed.
  (** several paths *)
  Lemma paths_only closed : forall paths segs, Forall (snaps to_int style s o) paths -> (closed = true -> Forall (faithful to_int) paths) -> (closed = false -> cap_left (st_start RF style) /\ cap_left (st_end RF style)) ->
    concat_opt (map (stroke_build RF to_int (stroke_builder_new RF to_int style) closed) paths) = Some segs -> far_segs q segs ->
    (0 < segs_wind q segs)%Z -> exists path, In path paths /\ covered to_int style closed path p.
  Proof.
    induction paths as [|path paths IH]; intros segs Sn Fa Cl H F W; cbn [map concat_opt] in H; [injection H as <-; discriminate W|].
    destruct (stroke_build RF to_int _ closed path) as [l|] eqn:E; [|discriminate]. destruct (concat_opt _) as [m|]; [|discriminate]. injection H as <-. rewrite segs_wind_app in W.
    inversion Sn as [|x y S1 S2]; subst.
    assert (F1 : closed = true -> faithful to_int path) by (intro X; apply Fa in X; inversion X; auto). assert (F2 : closed = true -> Forall (faithful to_int) paths) by (intro X; apply Fa in X; inversion X; auto).
    destruct (Z_lt_le_dec 0 (segs_wind q l)) as [X|X].
    - exists path. split; [simpl; auto|]. apply (path_only closed path l S1 F1 Cl E); auto. intros x Ix. apply F, in_or_app. auto.
    - destruct (IH m S2 F2 Cl eq_refl) as (path' & I' & C'); [intros x Ix; apply F, in_or_app; auto|lia|]. exists path'. simpl; auto.
  Qed.
  Lemma paths_all closed : forall paths segs, Forall (snaps to_int style s o) paths -> (closed = true -> Forall (faithful to_int) paths) -> (closed = false -> cap_left (st_start RF style) /\ cap_left (st_end RF style)) ->
    concat_opt (map (stroke_build RF to_int (stroke_builder_new RF to_int style) closed) paths) = Some segs -> far_segs q segs ->
    Forall (no_short_sides to_int style closed) paths -> Forall (fun path => not_central to_int style closed path p) paths ->
    (0 <= segs_wind q segs)%Z /\ forall path, In path paths -> covered to_int style closed path p -> (0 < segs_wind q segs)%Z.
  Proof.
    induction paths as [|path paths IH]; intros segs Sn Fa Cl H F Lo Nc; cbn [map concat_opt] in H; [injection H as <-; split; [apply Z.le_refl|intros ? []]|].
    destruct (stroke_build RF to_int _ closed path) as [l|] eqn:E; [|discriminate]. destruct (concat_opt _) as [m|]; [|discriminate]. injection H as <-. rewrite segs_wind_app.
    inversion Sn as [|x y S1 S2]; subst. inversion Lo as [|x y L1 L2]; subst. inversion Nc as [|x y N1 N2]; subst.
    assert (F1 : closed = true -> faithful to_int path) by (intro X; apply Fa in X; inversion X; auto). assert (F2 : closed = true -> Forall (faithful to_int) paths) by (intro X; apply Fa in X; inversion X; auto).
    destruct (IH m S2 F2 Cl eq_refl) as [A B]; auto; [intros x Ix; apply F, in_or_app; auto|].
    destruct (path_all closed path l S1 F1 Cl E) as [A' B']; auto; [intros x Ix; apply F, in_or_app; auto|].
    split; [lia|]. intros path' [<-|I'] C; [specialize (B' C); lia|specialize (B path' I' C); lia].
  Qed.
End Path.
