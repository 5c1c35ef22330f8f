(** * C53 for the shapes of a stroke or offset: when the contours of the answer do not touch, a point of the region is covered by exactly one shape returned. *)
From Verif Require Import Base Spec QLib ModelSegm SegmProofs MergeProofs PlanarGeo PlanarSum ModelFill ModelFilter FillProofs FillCorrect
  ModelCross CrossProofs CrossPoint MarksProofs CoreResults Properties01 ModelSplit SplitProofs SplitPlanar SplitPass BinsProofs SplitApply SplitLoop
  ModelFrag ModelOverlay OverlayProofs FragProofs GridCover Properties02
  ModelGraph GraphProofs ModelExtract ExtractProofs ContourResults Rotation NextLink Properties03
  MoveLemma SectorLemma Sides WalkSides Orient Properties04 ModelBind BindProofs BindSweep Nest Properties05 Natural ModelOffset OffsetProofs ModelMesh MeshProofs MeshStrip Properties09
  SplitNear InputCover Properties15 Properties10 ModelOutline Properties13 OffsetNear Properties19 OverlayNear OffsetEdges Properties22 ModelRect Properties29 Properties33 Properties35.
From Coq Require Import Reals Lra Psatz Qreals.
From Verif Require Import RealMesh RealJoin RealReach Properties11 RealMiter RealWind RealMove RealCorner RealStroke RealPieces RealCount RealCover RealPath RealRound Properties20
  RealOuter RealShift RealContour RealOffset RealAround Properties21 RealBack Properties23.
Open Scope R_scope.


(** ** Specification *)
(** inside the first contour of the shape (it winds around the point) and inside none of the others; as [covers] on the grid *)
Definition rcovers (sh : list (list rpt)) (p : rpt) : Prop :=
  match sh with [] => False | c :: hs => rcontour_wind c p <> 0%Z /\ forall h, In h hs -> rcontour_wind h p = 0%Z end.
(** exactly one of the shapes covers the point *)
Definition covered_once (shapes : list (list (list rpt))) (p : rpt) : Prop :=
  exists k sh, nth_error shapes k = Some sh /\ rcovers sh p /\ forall k' sh', nth_error shapes k' = Some sh' -> rcovers sh' p -> k' = k.

Lemma rcovers_back back s o delta sh p q : back_ok back s o delta -> rplace s o p = rq q ->
  (forall c i, In c sh -> In i c -> bounded_pt i) -> (forall c e, In c sh -> In e (edges c) -> ~ rwithin delta (rz (fst e)) (rz (snd e)) (rq q)) ->
  (rcovers (map (map back) sh) p <-> covers sh q).
Proof.
  intros Bk Pq B K. destruct sh as [|c hs]; [reflexivity|]. cbn [map rcovers covers]. unfold encloses.
  assert (Ec : forall c', In c' (c :: hs) -> rcontour_wind (map back c') p = contour_wind c' q) by (intros c' Ic; eapply back_contour; eauto).
  rewrite (Ec c) by (simpl; auto). split; intros [P1 P2]; split; auto.
  - intros h Ih X. apply X. rewrite <- (Ec h) by (simpl; auto). apply P2, in_map, Ih.
  - intros h Ih. apply in_map_iff in Ih as (h' & <- & Ih). rewrite (Ec h') by (simpl; auto). specialize (P2 h' Ih). lia.
Qed.

Section WithContracts.
  Variable layout_new : Z -> Z -> nat -> option (Z -> nat).
  Hypothesis Lay : layout_ok layout_new.
  Variable query : list (nat * xseg) -> Z * Z -> Z -> list (nat * xseg).
  Hypothesis Qry : query_ok query.
  Variable tree_new : Z * Z -> bool.
  Variable sort_ends : list link -> list (nat * pt).
  Hypothesis Sort : forall ls, ends_ok ls (sort_ends ls).
  Variable clean : bool -> list pt -> list pt * bool.
  Hypothesis Cln : clean_ok clean.
  Hypothesis Ced : clean_edges clean.
  Variable adapter_of : frect RF -> radapter.
  Variable int_area : radapter -> list rpt -> Z.
  Variable float_clean : radapter -> list (list (list rpt)) -> list (list (list rpt)).
  Variables (n : nat) (solver : Solver) (dbg : bool).
  Variables (s : R) (o : rpt) (delta eta : R) (D : Z).
  Hypothesis Eta : 0 <= eta.
  Notation m := (moved (precision solver) n).

  Section Stroke.
    Variables (style : stroke_style RF) (jc cc : nat) (closed clockwise : bool) (filter : rfilter) (paths : list (list rpt)) (segs : list (segment cntO)) (out : list (list (list rpt))).
    Notation a := (adapter_of (stroke_rect RF style paths)).
    Hypothesis Wide : 0 < st_width RF style /\ (1 < Z.abs (ra_len a (st_width RF style / 2)))%Z.
    Hypothesis Drawn : stroke_segments RF (ra_in a) style jc cc closed paths = Some segs.
    Hypothesis Fits : Forall (fun s => sa (sx s) <> sb (sx s) /\ CrossPoint.bounded (sx s)) segs.
    Hypothesis NoGrid : no_grid solver (length (sort_merge segs)).
    Hypothesis Run : stroke_call layout_new query tree_new sort_ends clean adapter_of float_clean (S n) solver dbg style jc cc closed clockwise filter paths = ROk out.
    Hypothesis Snap : snapping (ra_in a) style s o closed paths.
    Hypothesis Caps : plain_caps style closed.
    Hypothesis Back : back_ok (ra_out a) s o delta.
    Hypothesis Clean : rf_clean filter = true -> float_clean_ok (float_clean a) s o eta.
    Hypothesis Dist : enough D m delta eta.

    Hypothesis Simple : simplify_ok clean.
    Hypothesis Kept : rf_clean filter = false.
    Hypothesis Apart : forall ls, offset_links layout_new query tree_new (S n) solver segs = ROk ls -> Properties05.apart (border ls).

    Lemma stroke_shapes_area q p : rplace s o p = rq q -> clear_of D segs q ->
      (forall k k' sh sh', k <> k' -> nth_error out k = Some sh -> nth_error out k' = Some sh' -> ~ (rcovers sh p /\ rcovers sh' p)) /\
      ((exists sh, In sh out /\ rcovers sh p) <-> area segs q = true).
    Proof.
      intros Pq C. assert (Run' := Run). unfold stroke_call in Run'. destruct (stroke_custom _ _ _ _ _ _ _ _ _ _ _ _ _ _ _ _ _) as [shapes| |] eqn:Es; try discriminate. cbn [rbind] in Run'.
      assert (Eo : out = map (map (map (ra_out a))) shapes).
      { rewrite Kept in Run'. unfold float_shapes in Run'. destruct shapes; cbn [map] in Run' |- *; congruence. }
      clear Run'. destruct Dist as [D2 Dm]. assert (Back' := Back). destruct Back' as (_ & D0 & _). assert (Lm : (m <= D)%Z) by (apply le_IZR; lra).
      destruct (stroke_drawn layout_new Lay query Qry tree_new sort_ends Sort clean Cln Ced n solver dbg RF (ra_in a) (ra_len a) style jc cc closed clockwise paths segs shapes Drawn Fits NoGrid Es) as [Ed Rg].
      assert (Cw := result_area layout_new Lay query Qry tree_new sort_ends Sort clean Cln n solver dbg (ra_len a) (ra_in a) style jc cc closed clockwise paths segs shapes Wide Drawn Fits NoGrid Es q
        ltac:(eapply clear_mono; [|exact C]; lia)).
      pose proof (clear_apart m D segs q C) as Aq.
      assert (K : forall sh, In sh shapes -> (rcovers (map (map (ra_out a)) sh) p <-> covers sh q)).
      { intros sh Is. apply (rcovers_back (ra_out a) s o delta); auto.
        - intros c i Ic. apply Rg. apply in_concat. eauto.
        - intros c e Ic Ie. apply (edge_apart (near_segs m segs) (fst e) (snd e) q delta (IZR D - IZR m)); [|exact Aq|lra]. intros x Ox. eapply Ed; eauto. apply in_concat. eauto. }
      destruct (C45_stroke_apart layout_new Lay query Qry tree_new clean Cln Simple sort_ends Sort n solver dbg RF (ra_in a) (ra_len a) style jc cc closed clockwise paths segs shapes Drawn Fits NoGrid Apart Es)
        as (F & Dj & Cv). rewrite Eo. split.
      - intros k k' sh sh' Nk E1 E2 [C1 C2]. rewrite nth_error_map in E1, E2.
        destruct (nth_error shapes k) as [x|] eqn:X1; [|discriminate]. destruct (nth_error shapes k') as [x'|] eqn:X2; [|discriminate]. cbn [option_map] in E1, E2.
        injection E1 as <-. injection E2 as <-. apply (Dj k k' x x' q Nk X1 X2). split; apply K; auto; eapply nth_error_In; eauto.
      - transitivity (exists sh, In sh shapes /\ covers sh q).
        + split; intros (sh & Is & X).
          * apply in_map_iff in Is as (x & <- & Is). exists x. split; auto. apply K; auto.
          * exists (map (map (ra_out a)) sh). split; [apply in_map; auto|]. apply K; auto.
        + rewrite Cv by (apply clear_away; eapply clear_mono; [|exact C]; lia).
          assert (E : from_f64 RF (d_mul RF (d_lit RF (1 # 2)) (to_f64 RF (st_width RF style))) = st_width RF style / 2).
          { cbn [RF from_f64 to_f64 d_mul d_lit]. rewrite q_1_2. lra. }
          rewrite E. replace (Z.abs (ra_len a (st_width RF style / 2)) <=? 1)%Z with false by (symmetry; apply Z.leb_gt; tauto). cbn [negb andb]. tauto.
    Qed.
    Lemma covered_area q p : rplace s o p = rq q -> clear_of D segs q -> area segs q = true -> covered_once out p.
    Proof.
      intros Pq C A. destruct (stroke_shapes_area q p Pq C) as [Dj Cv]. apply Cv in A as (sh & Is & X). apply In_nth_error in Is as (k & Ek). exists k, sh. split; auto. split; auto.
      intros k' sh' E' X'. destruct (Nat.eq_dec k' k) as [|Nk]; auto. destruct (Dj k' k sh' sh Nk E' Ek); auto.
    Qed.
    (** No shape covers a point that is no piece's. *)
    Theorem C53_shapes_only q p : rplace s o p = rq q -> clear_of D segs q -> ~ on_stroke (ra_in a) style closed paths p -> forall sh, In sh out -> ~ rcovers sh p.
    Proof.
      intros Pq C N sh Is X. assert (Ar : area segs q = true) by (apply (proj2 (stroke_shapes_area q p Pq C)); eauto).
      assert (C2 : clear_of 2 segs q) by (destruct Dist; eapply clear_mono; [|exact C]; lia).
      destruct N. apply (C51_only (ra_in a) style jc cc closed paths segs (proj1 Wide) Drawn s o Snap Caps q p Pq C2 Ar).
    Qed.
    Hypothesis Long : Forall (no_short_sides (ra_in a) style closed) paths.
    (** A point of the pieces is covered by one shape and no other. *)
    Theorem C53_shapes_once q p : rplace s o p = rq q -> clear_of D segs q -> Forall (fun path => not_central (ra_in a) style closed path p) paths ->
      on_stroke (ra_in a) style closed paths p -> covered_once out p.
    Proof.
      intros Pq C Nc On. assert (C2 : clear_of 2 segs q) by (destruct Dist; eapply clear_mono; [|exact C]; lia).
      apply (covered_area q p Pq C). apply (C51_stroke (ra_in a) style jc cc closed paths segs (proj1 Wide) Drawn s o Snap Caps Long q p Pq C2 Nc). auto.
    Qed.
  End Stroke.

  Section Outline.
    Variables (offset inner : R) (join : line_join RF) (clockwise : bool) (filter : rfilter) (path : list rpt) (segs : list (segment cntO)) (out : list (list (list rpt))).
    Notation a := (adapter_of (outline_rect RF offset inner join [path])).
    Notation min_area := (Z.max (ra_sqr a (rf_min_area filter)) 1).
    Hypothesis Area : (int_area a path < -1)%Z.
    Hypothesis Drawn : outline_segments RF (ra_in a) (- offset) (join_normalize RF join) path = Some segs.
    Hypothesis Fits : Forall (fun s => sa (sx s) <> sb (sx s) /\ CrossPoint.bounded (sx s)) segs.
    Hypothesis NoGrid : no_grid solver (length (sort_merge segs)).
    Hypothesis Run : outline_call layout_new query tree_new sort_ends clean adapter_of int_area float_clean (S n) solver dbg offset inner join clockwise filter [path] = ROk out.
    Hypothesis Snap : snaps_near (ra_in a) (join_reach (- offset) join) s o path.
    Hypothesis Back : back_ok (ra_out a) s o delta.
    Hypothesis Clean : rf_clean filter = true -> float_clean_ok (float_clean a) s o eta.
    Hypothesis Dist : enough D m delta eta.
    (** every contour found has an edge that was drawn for a side or join, and enough area *)
    Hypothesis All : forall ls g bps, offset_links layout_new query tree_new (S n) solver segs = ROk ls -> graph_new ls (sort_ends ls) = Some g -> offset_pieces g clean clockwise min_area = Some bps ->
      Forall (fun bp => snd bp = true /\ (min_area = 0%Z \/ p_valid (fst bp) = true)) bps.
    Hypothesis Simplify : simplify_ok clean.
    Hypothesis Kept : rf_clean filter = false.
    Hypothesis Apart : forall ls, offset_links layout_new query tree_new (S n) solver segs = ROk ls -> Properties05.apart (border ls).
    Lemma outline_shapes_area q p : rplace s o p = rq q -> clear_of D segs q ->
      (forall k k' sh sh', k <> k' -> nth_error out k = Some sh -> nth_error out k' = Some sh' -> ~ (rcovers sh p /\ rcovers sh' p)) /\
      ((exists sh, In sh out /\ rcovers sh p) <-> area segs q = true).
    Proof.
      intros Pq C. assert (Run' := Run). unfold outline_call in Run'. destruct (outline_custom _ _ _ _ _ _ _ _ _ _ _ _ _ _ _ _ _) as [shapes| |] eqn:Es; try discriminate. cbn [rbind] in Run'.
      assert (Eo : out = map (map (map (ra_out a))) shapes).
      { rewrite Kept in Run'. unfold float_shapes in Run'. destruct shapes; cbn [map] in Run' |- *; congruence. }
      clear Run'. destruct Dist as [D2 Dm]. assert (Back' := Back). destruct Back' as (_ & D0 & _). assert (Lm : (m <= D)%Z) by (apply le_IZR; lra).
      assert (DR : edges_at (near_segs m segs) (concat shapes) /\ forall c p, In c (concat shapes) -> In p c -> bounded_pt p).
      { destruct (single_drawn layout_new Lay query Qry tree_new sort_ends Sort clean Cln Ced n solver dbg RF (ra_in a) (int_area a) offset inner join clockwise min_area path shapes) as [Ed Rg]; auto.
        - intros _ sg Hs. change (n_neg RF offset) with (- offset) in Hs. rewrite Drawn in Hs. injection Hs as <-. auto.
        - split; auto. intros c e x Ic Ie Oq. destruct (Ed c e x Ic Ie Oq) as (sg & Hs & Nr). change (n_neg RF offset) with (- offset) in Hs. rewrite Drawn in Hs. injection Hs as <-. exact Nr. }
      destruct DR as [Ed Rg]. pose proof (clear_apart m D segs q C) as Aq.
      assert (K : forall sh, In sh shapes -> (rcovers (map (map (ra_out a)) sh) p <-> covers sh q)).
      { intros sh Is. apply (rcovers_back (ra_out a) s o delta); auto.
        - intros c i Ic. apply Rg. apply in_concat. eauto.
        - intros c e Ic Ie. apply (edge_apart (near_segs m segs) (fst e) (snd e) q delta (IZR D - IZR m)); [|exact Aq|lra]. intros x Ox. eapply Ed; eauto. apply in_concat. eauto. }
      destruct (C45_single_apart layout_new Lay query Qry tree_new clean Cln Simplify sort_ends Sort n solver dbg RF (ra_in a) (int_area a) offset inner join clockwise min_area path segs shapes Drawn Fits NoGrid All Apart Es)
        as (F & Dj & Cv). rewrite Eo. split.
      - intros k k' sh sh' Nk E1 E2 [C1 C2]. rewrite nth_error_map in E1, E2.
        destruct (nth_error shapes k) as [x|] eqn:X1; [|discriminate]. destruct (nth_error shapes k') as [x'|] eqn:X2; [|discriminate]. cbn [option_map] in E1, E2.
        injection E1 as <-. injection E2 as <-. apply (Dj k k' x x' q Nk X1 X2). split; apply K; auto; eapply nth_error_In; eauto.
      - transitivity (exists sh, In sh shapes /\ covers sh q).
        + split; intros (sh & Is & X).
          * apply in_map_iff in Is as (x & <- & Is). exists x. split; auto. apply K; auto.
          * exists (map (map (ra_out a)) sh). split; [apply in_map; auto|]. apply K; auto.
        + rewrite Cv by (apply clear_away; eapply clear_mono; [|exact C]; lia).
          replace (int_area a path <? -1)%Z with true by (symmetry; apply Z.ltb_lt; auto). cbn [andb]. tauto.
    Qed.
    Lemma outline_covered q p : rplace s o p = rq q -> clear_of D segs q -> area segs q = true -> covered_once out p.
    Proof.
      intros Pq C A. destruct (outline_shapes_area q p Pq C) as [Dj Cv]. apply Cv in A as (sh & Is & X). apply In_nth_error in Is as (k & Ek). exists k, sh. split; auto. split; auto.
      intros k' sh' E' X'. destruct (Nat.eq_dec k' k) as [|Nk]; auto. destruct (Dj k' k sh' sh Nk E' Ek); auto.
    Qed.
    Lemma outline_uncovered q p : rplace s o p = rq q -> clear_of D segs q -> area segs q = false -> forall sh, In sh out -> ~ rcovers sh p.
    Proof. intros Pq C A sh Is X. assert (Y : area segs q = true) by (apply (proj2 (outline_shapes_area q p Pq C)); eauto). congruence. Qed.
    (** [offset] positive: the contour grows; no shape covers points outside it that are not along it.  Negative: it shrinks; points inside that are not along it are covered by one shape. *)
    Theorem C53_outline_shapes_within q p : rplace s o p = rq q -> clear_of D segs q -> 0 < offset ->
      ~ in_path path p -> ~ along (ra_in a) join (- offset) path p -> forall sh, In sh out -> ~ rcovers sh p.
    Proof.
      intros Pq C P N1 N2. apply (outline_uncovered q p Pq C). assert (C2 : clear_of 2 segs q) by (destruct Dist; eapply clear_mono; [|exact C]; lia).
      destruct (area segs q) eqn:A; auto. destruct (C52_grow_only (ra_in a) join offset path segs s o P Drawn Snap q p Pq C2 A); tauto.
    Qed.
    Theorem C53_outline_shapes_keeps q p : rplace s o p = rq q -> clear_of D segs q -> offset < 0 ->
      in_path path p -> ~ along (ra_in a) join (- offset) path p -> covered_once out p.
    Proof.
      intros Pq C P N1 N2. apply (outline_covered q p Pq C). assert (C2 : clear_of 2 segs q) by (destruct Dist; eapply clear_mono; [|exact C]; lia).
      apply (C52_shrink_keeps (ra_in a) join (- offset) path segs s o ltac:(lra) Drawn Snap q p); auto.
    Qed.
    Hypothesis Long : long_sides (ra_in a) (- offset) path.
    Theorem C53_outline_shapes_inside q p : rplace s o p = rq q -> clear_of D segs q ->
      (0 < offset -> in_path path p -> covered_once out p) /\ (offset < 0 -> ~ in_path path p -> forall sh, In sh out -> ~ rcovers sh p).
    Proof.
      intros Pq C. assert (C2 : clear_of 2 segs q) by (destruct Dist; eapply clear_mono; [|exact C]; lia). split; intros P H.
      - apply (outline_covered q p Pq C). apply (C52_grow_inside (ra_in a) join offset path segs s o P Drawn Snap Long q p); auto.
      - apply (outline_uncovered q p Pq C). destruct (area segs q) eqn:A; auto. destruct H. apply (C52_shrink_inside (ra_in a) join (- offset) path segs s o ltac:(lra) Drawn Snap Long q p); auto.
    Qed.
    Hypothesis Simple : simple_path path.
    Hypothesis Gentle : gentle_bends (ra_in a) (- offset) path.
    Theorem C53_outline_shapes q p : offset <> 0 -> rplace s o p = rq q -> clear_of D segs q -> off_center (ra_in a) (- offset) path p ->
      along (ra_in a) join (- offset) path p -> if Rltb 0 offset then covered_once out p else forall sh, In sh out -> ~ rcovers sh p.
    Proof.
      intros Nz Pq C Oc Al. assert (C2 : clear_of 2 segs q) by (destruct Dist; eapply clear_mono; [|exact C]; lia). destruct (Rltb 0 offset) eqn:E.
      - apply Rltb_true in E. apply (outline_covered q p Pq C). apply (C52_grow (ra_in a) join offset path segs s o E Drawn Snap Long Simple Gentle q p); auto.
      - apply Rltb_false in E. apply (outline_uncovered q p Pq C). destruct (area segs q) eqn:A; auto.
        apply (C52_shrink (ra_in a) join (- offset) path segs s o ltac:(lra) Drawn Snap Long Simple (or_introl Gentle) q p) in A; auto. tauto.
    Qed.
  End Outline.

  Section Several.
    Variables (outer inner : R) (join : line_join RF) (clockwise : bool) (filter : rfilter) (paths : list (list rpt)) (out : list (list (list rpt))).
    Notation a := (adapter_of (outline_rect RF outer inner join paths)).
    Notation min_area := (Z.max (ra_sqr a (rf_min_area filter)) 1).
    Notation contours_of := (outline_contours layout_new query tree_new sort_ends clean (S n) solver dbg RF (ra_in a) (int_area a) outer inner (join_normalize RF join) paths).
    Hypothesis Many : (2 <= length paths)%nat.
    (** no segment of length zero, and the list or tree split, for every offset and for the overlay of the offsets *)
    Hypothesis Fits : fit_paths solver RF (ra_in a) (int_area a) outer inner join paths.
    Hypothesis FitsAll : forall contours, contours_of = ROk contours -> fit_contours solver contours.
    Hypothesis Run : outline_call layout_new query tree_new sort_ends clean adapter_of int_area float_clean (S n) solver dbg outer inner join clockwise filter paths = ROk out.
    Hypothesis Back : back_ok (ra_out a) s o delta.
    Hypothesis Clean : rf_clean filter = true -> float_clean_ok (float_clean a) s o eta.
    (** two rounds of splitting, one after the other *)
    Hypothesis Dist : enough D (2 * m) delta eta.
    Notation clear q := (clear_drawn adapter_of int_area D outer inner join paths q).
    Hypothesis All : kept_paths layout_new query tree_new sort_ends clean n solver RF (ra_in a) (int_area a) outer inner join paths.
    Hypothesis AllAll : forall contours, contours_of = ROk contours -> kept_contours layout_new query tree_new sort_ends clean n solver contours clockwise min_area.
    Hypothesis Simplify : simplify_ok clean.
    Hypothesis Dedup : dedup_ok clean.
    Hypothesis Kept : rf_clean filter = false.
    (** the contours of the result do not touch; those of the single offsets may *)
    Hypothesis Apart : forall contours, contours_of = ROk contours ->
      forall ls, overlay_links layout_new query tree_new (S n) solver RSubject Positive (input_segments (map (fun c => (c, Subject)) contours)) = ROk ls -> Properties05.apart ls.
    Lemma several_shapes_area q p : rplace s o p = rq q -> clear q ->
      (forall k k' sh sh', k <> k' -> nth_error out k = Some sh -> nth_error out k' = Some sh' -> ~ (rcovers sh p /\ rcovers sh' p)) /\
      ((exists sh, In sh out /\ rcovers sh p) <-> outline_region RF (ra_in a) (int_area a) outer inner join paths q = true).
    Proof.
      intros Pq C. assert (Run' := Run). unfold outline_call in Run'. destruct (outline_custom _ _ _ _ _ _ _ _ _ _ _ _ _ _ _ _ _) as [shapes| |] eqn:Es; try discriminate. cbn [rbind] in Run'.
      assert (Eo : out = map (map (map (ra_out a))) shapes).
      { rewrite Kept in Run'. unfold float_shapes in Run'. destruct shapes; cbn [map] in Run' |- *; congruence. }
      clear Run'. destruct Dist as [_ Dm]. assert (Back' := Back). destruct Back' as (_ & D0 & _).
      destruct (several_drawn layout_new Lay query Qry tree_new sort_ends Sort clean Cln Ced n solver dbg RF (ra_in a) (int_area a) outer inner join clockwise min_area paths shapes Many Fits FitsAll Es) as [Ed Rg].
      assert (Aq : RealBack.apart (IZR D - IZR (2 * m)) (near_drawn RF (ra_in a) (int_area a) outer inner join (2 * m) paths) q).
      { intros x (path & Ip & [[Io (segs & Hs & Nr)]|[Ii (segs & Hs & Nr)]]) Cl; destruct (C path Ip) as [Co Ci].
        - exact (clear_apart (2 * m) D segs q (Co Io segs Hs) x Nr Cl).
        - exact (clear_apart (2 * m) D segs q (Ci Ii segs Hs) x Nr Cl). }
      assert (K : forall sh, In sh shapes -> (rcovers (map (map (ra_out a)) sh) p <-> covers sh q)).
      { intros sh Is. apply (rcovers_back (ra_out a) s o delta); auto.
        - intros c i Ic. apply Rg. apply in_concat. eauto.
        - intros c e Ic Ie. apply (edge_apart (near_drawn RF (ra_in a) (int_area a) outer inner join (2 * m) paths) (fst e) (snd e) q delta (IZR D - IZR (2 * m))); [|exact Aq|lra]. intros x Ox. eapply Ed; eauto. apply in_concat. eauto. }
      destruct (C45_several_apart layout_new Lay query Qry tree_new clean Cln Simplify Dedup sort_ends Sort n solver dbg RF (ra_in a) (int_area a) outer inner join Ced clockwise min_area paths shapes Many Fits All)
        as (F & Dj & Cv); [intros contours Hc; split; [auto|split; [auto|eauto]]|exact Es|]. rewrite Eo. split.
      - intros k k' sh sh' Nk E1 E2 [C1 C2]. rewrite nth_error_map in E1, E2.
        destruct (nth_error shapes k) as [x|] eqn:X1; [|discriminate]. destruct (nth_error shapes k') as [x'|] eqn:X2; [|discriminate]. cbn [option_map] in E1, E2.
        injection E1 as <-. injection E2 as <-. apply (Dj k k' x x' q Nk X1 X2). split; apply K; auto; eapply nth_error_In; eauto.
      - rewrite <- Cv.
        + split; intros (sh & Is & X).
          * apply in_map_iff in Is as (x & <- & Is). exists x. split; auto. apply K; auto.
          * exists (map (map (ra_out a)) sh). split; [apply in_map; auto|]. apply K; auto.
        + intro X. apply (Aq q X). split; rewrite Rminus_diag_eq by reflexivity; rewrite Rabs_R0; lra.
    Qed.
    (** Every contour is offset as C52 says, and the results count: points in more outer contours than holes are covered by one shape, other points by none. *)
    Theorem C53_several_shapes (in_outer in_hole : list rpt -> bool) q p : (2 <= D)%Z -> rplace s o p = rq q -> clear q ->
      (forall path, In path paths -> is_outer RF (int_area a) path = true -> plain_offset (ra_in a) join (- outer) s o path p /\ (in_outer path = true <-> offset_has (ra_in a) join (- outer) path p)) ->
      (forall path, In path paths -> is_inner RF (int_area a) path = true -> plain_offset (ra_in a) join inner s o (rev path) p /\ (in_hole path = true <-> offset_has (ra_in a) join inner (rev path) p)) ->
      if (Properties13.count (fun path => is_inner RF (int_area a) path && in_hole path) paths <? Properties13.count (fun path => is_outer RF (int_area a) path && in_outer path) paths)%Z
      then covered_once out p else forall sh, In sh out -> ~ rcovers sh p.
    Proof.
      intros D2 Pq C Ho Hi. destruct (several_shapes_area q p Pq C) as [Dj Cv]. unfold outline_region in Cv. change (n_neg RF outer) with (- outer) in Cv.
      assert (B : forall x y : bool, (x = true <-> y = true) -> x = y) by (intros [] [] [U V]; auto; try (symmetry; auto)).
      rewrite (count_agree (fun path => is_inner RF (int_area a) path && Properties13.covered RF (ra_in a) join inner (rev path) q) (fun path => is_inner RF (int_area a) path && in_hole path) paths),
        (count_agree (fun path => is_outer RF (int_area a) path && Properties13.covered RF (ra_in a) join (- outer) path q) (fun path => is_outer RF (int_area a) path && in_outer path) paths) in Cv.
      - destruct (_ <? _)%Z.
        + destruct (proj2 Cv eq_refl) as (sh & Is & X). apply In_nth_error in Is as (k & Ek). exists k, sh. split; auto. split; auto.
          intros k' sh' E' X'. destruct (Nat.eq_dec k' k) as [|Nk]; auto. destruct (Dj k' k sh' sh Nk E' Ek); auto.
        + intros sh Is X. assert (Y : false = true) by (apply Cv; eauto). discriminate.
      - intros path Ip. destruct (is_outer RF (int_area a) path) eqn:E; auto. cbn [andb]. destruct (Ho path Ip E) as [Pl De]. apply B. rewrite De. apply (covered_has (ra_in a) join (- outer) s o path q p Pl Pq).
        intros segs Hs. eapply clear_mono; [|apply (proj1 (C path Ip) E segs Hs)]. lia.
      - intros path Ip. destruct (is_inner RF (int_area a) path) eqn:E; auto. cbn [andb]. destruct (Hi path Ip E) as [Pl De]. apply B. rewrite De. apply (covered_has (ra_in a) join inner s o (rev path) q p Pl Pq).
        intros segs Hs. eapply clear_mono; [|apply (proj2 (C path Ip) E segs Hs)]. lia.
    Qed.
  End Several.
End WithContracts.
(** ** Example: the bent stroke of C53, points on straight lines dropped on the grid, no clean-up of the result *)
Definition plain_filter : rfilter := RFl 0 false.
Example C53_shapes_example : exists out,
  stroke_call lay4 qry (fun _ => true) sorted_ends clean_line unit_adapter (fun _ x => x) 2 (mk_solver StAuto) true (bend_style (Bevel RF) (Butt RF)) 2 1 false false plain_filter [bend] = ROk out /\
  covered_once out (50, 5).
Proof.
  assert (E : from_f64 RF (d_mul RF (d_lit RF (1 # 2)) (to_f64 RF (st_width RF (bend_style (Bevel RF) (Butt RF))))) = IZR 10).
  { cbn [RF from_f64 to_f64 d_mul d_lit]. rewrite q_1_2. cbn [bend_style st_width]. lra. }
  assert (R : stroke_custom lay4 qry (fun _ => true) sorted_ends clean_line 2 (mk_solver StAuto) true RF r_round real_len (bend_style (Bevel RF) (Butt RF)) 2 1 false false [bend] =
    ROk [[[Pt 0 10; Pt 0 (-10); Pt 100 (-10); Pt 110 0; Pt 110 100; Pt 90 100; Pt 90 10]]]).
  { unfold stroke_custom. rewrite bend_drawn. rewrite E. unfold real_len. rewrite int_part_IZR. cbn [Z.abs Z.leb Z.compare of_opt rbind]. vm_compute. reflexivity. }
  set (style := bend_style (Bevel RF) (Butt RF)) in *.
  eexists. match goal with |- ?A = ROk ?o /\ _ => assert (Run : A = ROk o) end.
  { unfold stroke_call. cbn [unit_adapter ra_in ra_len ra_out plain_filter rf_clean]. rewrite R. cbn [rbind]. reflexivity. }
  split; [exact Run|].
  destruct (bend_meets (Bevel RF) (Butt RF) I) as (Sn & Pl & Lo & Nc). destruct C51_example as (W1 & W2 & Ft & Ng & _ & _ & _ & On).
  destruct C47_apart_contracts as (Ck & Cs & _ & Ce).
  assert (Eo : enough 3 (moved (precision (mk_solver StAuto)) 1) (1 / 4) 0) by (split; [lia|]; replace (moved (precision (mk_solver StAuto)) 1) with 2%Z by reflexivity; lra).
  assert (Ap : forall ls, offset_links lay4 qry (fun _ => true) 2 (mk_solver StAuto) bend_segs = ROk ls -> Properties05.apart (border ls)).
  { apply (border_apart_ok bend_segs 2). vm_compute. reflexivity. }
  apply (C53_shapes_once lay4 lay4_ok qry qry_ok (fun _ => true) sorted_ends sorted_ends_ok clean_line Ck Ce unit_adapter (fun _ x => x) 1 (mk_solver StAuto) true 1 (0, 0) (1 / 4) 0 3%Z (Rle_refl 0)
    style 2 1 false false plain_filter [bend] bend_segs _ (conj W1 W2) bend_drawn Ft Ng Run Sn Pl unit_back (fun _ => unit_clean) Eo Cs eq_refl Ap Lo (50, 5)%Q (50, 5)); auto.
  - unfold rplace, rq, Q2R. cbn -[IZR Rinv]. f_equal; lra.
  - clear_away_from.
Qed.
(** The contour of C52's example, grown by 10. *)
Example C53_outline_shapes_example : exists out,
  outline_call lay4 qry (fun _ => true) sorted_ends clean_line unit_adapter (fun _ => r_area) (fun _ x => x) 2 (mk_solver StAuto) true 10 0 (Bevel RF) false plain_filter [ell] = ROk out /\
  covered_once out (205, 50).
Proof.
  destruct C47_apart_contracts as (Ck & Cs & _ & Ce). destruct C52_grow_example as (_ & Ft & Ng & _ & _ & Pq & _ & Al & _).
  destruct (ell_meets (- (10)) (Bevel RF) ltac:(lra) ltac:(rewrite Rabs_left; lra)) as (Sn & Lo & Si & Ge & Oc).
  assert (R : outline_custom lay4 qry (fun _ => true) sorted_ends clean_line 2 (mk_solver StAuto) true RF r_round r_area 10 0 (Bevel RF) false 1 [ell] =
    ROk [[[Pt (-10) 200; Pt (-10) 0; Pt 0 (-10); Pt 200 (-10); Pt 210 0; Pt 210 100; Pt 200 110; Pt 110 110; Pt 110 200; Pt 100 210; Pt 0 210]]]).
  { unfold outline_custom. rewrite ell_area. unfold outline_one. change (n_neg RF 10) with (- (10)). change (-1 <=? -30000)%Z with false. cbv iota. rewrite ell_drawn_grown. cbn [of_opt rbind]. vm_compute. reflexivity. }
  eexists. match goal with |- ?A = ROk ?o /\ _ => assert (Run : A = ROk o) end.
  { unfold outline_call. cbn [unit_adapter ra_in ra_len ra_out ra_sqr plain_filter rf_clean rf_min_area]. rewrite real_len_0. change (Z.max 0 1) with 1%Z. rewrite R. cbn [rbind]. reflexivity. }
  split; [exact Run|]. assert (Ea : (r_area ell < -1)%Z) by (rewrite ell_area; lia).
  assert (Eo : enough 3 (moved (precision (mk_solver StAuto)) 1) (1 / 4) 0) by (split; [lia|]; replace (moved (precision (mk_solver StAuto)) 1) with 2%Z by reflexivity; lra).
  assert (Ap : forall ls, offset_links lay4 qry (fun _ => true) 2 (mk_solver StAuto) ell_grown = ROk ls -> Properties05.apart (border ls)).
  { apply (border_apart_ok ell_grown 2). vm_compute. reflexivity. }
  assert (Al' : forall ls g bps, offset_links lay4 qry (fun _ => true) 2 (mk_solver StAuto) ell_grown = ROk ls -> graph_new ls (sorted_ends ls) = Some g ->
    offset_pieces g clean_line false (Z.max (real_len 0) 1) = Some bps -> Forall (fun bp => snd bp = true /\ (Z.max (real_len 0) 1 = 0%Z \/ p_valid (fst bp) = true)) bps).
  { rewrite real_len_0. change (Z.max 0 1) with 1%Z. ell_all. }
  pose proof (C53_outline_shapes lay4 lay4_ok qry qry_ok (fun _ => true) sorted_ends sorted_ends_ok clean_line Ck Ce unit_adapter (fun _ => r_area) (fun _ x => x) 1 (mk_solver StAuto) true 1 (0, 0) (1 / 4) 0 3%Z (Rle_refl 0)
      10 0 (Bevel RF) false plain_filter ell ell_grown _ Ea ell_drawn_grown Ft Ng Run Sn unit_back (fun _ => unit_clean) Eo Al' Cs eq_refl Ap Lo Si Ge (205, 50)%Q (205, 50) ltac:(lra) Pq) as H.
  unfold Rltb in H. destruct (Rlt_dec 0 10); [|lra]. apply H; auto.
  - clear_away_from.
  - destruct Oc as (e & f & F1 & F2). exists e, f. auto.
Qed.
Lemma frame_parts_line : outline_contours lay4 qry (fun _ => true) sorted_ends clean_line 2 (mk_solver StAuto) true RF r_round r_area 10 10 (join_normalize RF (Bevel RF)) frame = ROk frame_contours.
Proof.
  unfold frame. cbn [outline_contours]. rewrite ell_area, hole_area. change (Z.abs (-30000) <=? 1)%Z with false. change (-30000 <? 0)%Z with true. change (Z.abs 3600 <=? 1)%Z with false. change (3600 <? 0)%Z with false. cbv iota.
  change (rev hole) with sq. unfold outline_one. change (n_neg RF 10) with (- (10)). rewrite ell_drawn_grown, sq_drawn. cbn [of_opt rbind]. vm_compute. reflexivity.
Qed.
Example C53_several_shapes_example : exists out,
  outline_call lay4 qry (fun _ => true) sorted_ends clean_line unit_adapter (fun _ => r_area) (fun _ x => x) 2 (mk_solver StAuto) true 10 10 (Bevel RF) false plain_filter frame = ROk out /\
  covered_once out (23, 50) /\ forall sh, In sh out -> ~ rcovers sh (50, 50).
Proof.
  destruct C47_apart_contracts as (Ck & Cs & Cd & Ce). destruct C52_grow_example as (_ & Ft & Ng & _).
  destruct (ell_meets (- (10)) (Bevel RF) ltac:(lra) ltac:(rewrite Rabs_left; lra)) as (Sn & Lo & Si & Ge & Oc).
  eexists. match goal with |- ?A = ROk ?o /\ _ => assert (Run : A = ROk o) end.
  { unfold outline_call. cbn [unit_adapter ra_in ra_len ra_out ra_sqr plain_filter rf_clean rf_min_area]. rewrite real_len_0. change (Z.max 0 1) with 1%Z.
    change (outline_custom lay4 qry (fun _ => true) sorted_ends clean_line 2 (mk_solver StAuto) true RF r_round r_area 10 10 (Bevel RF) false 1 frame) with
      (rbind (outline_contours lay4 qry (fun _ => true) sorted_ends clean_line 2 (mk_solver StAuto) true RF r_round r_area 10 10 (join_normalize RF (Bevel RF)) frame) (positive_overlay lay4 qry (fun _ => true) sorted_ends clean_line 2 (mk_solver StAuto) true false 1)).
    rewrite frame_parts_line. cbn [rbind].
    match goal with |- rbind ?x _ = _ => let y := eval vm_compute in x in replace x with y by (vm_compute; reflexivity) end. cbn [rbind]. reflexivity. }
  split; [exact Run|].
  assert (Eo : enough 5 (2 * moved (precision (mk_solver StAuto)) 1) (1 / 4) 0) by (split; [lia|]; replace (2 * moved (precision (mk_solver StAuto)) 1)%Z with 4%Z by reflexivity; lra).
  assert (Fs : fit_paths (mk_solver StAuto) RF r_round r_area 10 10 (Bevel RF) frame).
  { apply (frame_paths_ok (fit_path (mk_solver StAuto) RF r_round (Bevel RF) (n_neg RF 10)) (fit_path (mk_solver StAuto) RF r_round (Bevel RF) 10)).
    - intros sg E. change (n_neg RF 10) with (- (10)) in E. rewrite ell_drawn_grown in E. injection E as <-. auto.
    - intros sg E. rewrite sq_drawn in E. injection E as <-. split; [apply fits_check; vm_compute; reflexivity|vm_compute; auto]. }
  assert (Kp : kept_paths lay4 qry (fun _ => true) sorted_ends clean_line 1 (mk_solver StAuto) RF r_round r_area 10 10 (Bevel RF) frame).
  { apply (frame_paths_ok (fun path => kept_path lay4 qry (fun _ => true) sorted_ends clean_line 1 (mk_solver StAuto) RF r_round (Bevel RF) (n_neg RF 10) path false 0)
      (fun path => kept_path lay4 qry (fun _ => true) sorted_ends clean_line 1 (mk_solver StAuto) RF r_round (Bevel RF) 10 path false 0)).
    - intros sg ls g bps E. change (n_neg RF 10) with (- (10)) in E. rewrite ell_drawn_grown in E. injection E as <-. revert ls g bps. ell_all.
    - intros sg ls g bps E. rewrite sq_drawn in E. injection E as <-. revert ls g bps. ell_all. }
  assert (Fc : forall contours, outline_contours lay4 qry (fun _ => true) sorted_ends clean_line 2 (mk_solver StAuto) true RF r_round r_area 10 10 (join_normalize RF (Bevel RF)) frame = ROk contours ->
    fit_contours (mk_solver StAuto) contours).
  { intros cs E. rewrite frame_parts_line in E. injection E as <-. split; [repeat constructor; discriminate|]. left. vm_compute. reflexivity. }
  assert (Kc : forall contours, outline_contours lay4 qry (fun _ => true) sorted_ends clean_line 2 (mk_solver StAuto) true RF r_round r_area 10 10 (join_normalize RF (Bevel RF)) frame = ROk contours ->
    kept_contours lay4 qry (fun _ => true) sorted_ends clean_line 1 (mk_solver StAuto) contours false 1).
  { intros cs E. rewrite frame_parts_line in E. injection E as <-. intros ls g ps Hl Hg Hp. right. vm_compute in Hl. injection Hl as <-. vm_compute in Hg. injection Hg as <-. vm_compute in Hp. injection Hp as <-. repeat constructor. }
  assert (M1 : Z.max (ra_sqr (unit_adapter (outline_rect RF 10 10 (Bevel RF) frame)) (rf_min_area plain_filter)) 1 = 1%Z) by (cbn [unit_adapter ra_sqr plain_filter rf_min_area]; rewrite real_len_0; reflexivity).
  assert (Apart : forall cs, outline_contours lay4 qry (fun _ => true) sorted_ends clean_line 2 (mk_solver StAuto) true RF r_round r_area 10 10 (join_normalize RF (Bevel RF)) frame = ROk cs ->
    forall ls, overlay_links lay4 qry (fun _ => true) 2 (mk_solver StAuto) RSubject Positive (input_segments (map (fun c => (c, Subject)) cs)) = ROk ls -> Properties05.apart ls).
  { intros cs E. rewrite frame_parts_line in E. injection E as <-. intros ls El. vm_compute in El. injection El as <-. apply apartb_ok. vm_compute. reflexivity. }
  assert (Main : forall (b : bool) q p, rplace 1 (0, 0) p = rq q -> clear_of 5 ell_grown q -> clear_of 5 sq_shrunk q -> in_path ell p -> plain_offset r_round (Bevel RF) 10 1 (0, 0) sq p ->
     (b = true <-> offset_has r_round (Bevel RF) 10 sq p) -> forall out, outline_call lay4 qry (fun _ => true) sorted_ends clean_line unit_adapter (fun _ => r_area) (fun _ x => x) 2 (mk_solver StAuto) true 10 10 (Bevel RF) false plain_filter frame = ROk out ->
     if b then (forall sh, In sh out -> ~ rcovers sh p) else covered_once out p).
  { clear Run. intros b q p Pq C1 C2 Ip Po Hb out Run.
    pose proof (C53_several_shapes lay4 lay4_ok qry qry_ok (fun _ => true) sorted_ends sorted_ends_ok clean_line Ck Ce unit_adapter (fun _ => r_area) (fun _ x => x) 1 (mk_solver StAuto) true 1 (0, 0) (1 / 4) 0 5%Z (Rle_refl 0)
      10 10 (Bevel RF) false plain_filter frame out ltac:(simpl; lia) Fs Fc Run unit_back (fun _ => unit_clean) Eo Kp ltac:(rewrite M1; exact Kc) Cs Cd eq_refl Apart (fun _ => true) (fun _ => b) q p) as H.
    assert (E : (Properties13.count (fun path => is_inner RF r_area path && b) frame <? Properties13.count (fun path => is_outer RF r_area path && true) frame)%Z = negb b)
      by (unfold frame, Properties13.count; cbn [filter]; unfold is_outer, is_inner; rewrite ell_area, hole_area; destruct b; reflexivity).
    cbn [unit_adapter ra_in] in H. rewrite E in H. cut (if negb b then covered_once out p else forall sh, In sh out -> ~ rcovers sh p); [destruct b; auto|]. apply H; auto; clear H E.
    - lia.
    - intros path I. split; intros T sg E.
      + destruct I as [<-|[<-|[]]]; [|unfold is_outer in T; rewrite hole_area in T; discriminate]. cbn [unit_adapter ra_in] in E. rewrite ell_drawn_grown in E. injection E as <-. auto.
      + destruct I as [<-|[<-|[]]]; [unfold is_inner in T; rewrite ell_area in T; discriminate|]. cbn [unit_adapter ra_in] in E. change (rev hole) with sq in E. rewrite sq_drawn in E. injection E as <-. auto.
    - intros path [<-|[<-|[]]] T; [|unfold is_outer in T; rewrite hole_area in T; discriminate]. split.
      + split; [lra|]. split; auto. split; auto. split; auto. split; auto. destruct Oc as (e & f & F1 & F2). exists e, f. auto.
      + split; auto. intros _. unfold offset_has, Rltb. destruct (Rlt_dec (- (10)) 0); [auto|lra].
    - intros path [<-|[<-|[]]] T; [unfold is_inner in T; rewrite ell_area in T; discriminate|]. change (rev hole) with sq. split; auto. }
  split.
  - apply (Main false (23, 50)%Q); auto.
    + unfold rplace, rq, Q2R. cbn -[IZR Rinv]. f_equal; lra.
    + clear_away_from.
    + clear_away_from.
    + apply ell_in; lra.
    + apply sq_meets; lra.
    + split; [discriminate|]. intro H. unfold offset_has, Rltb in H. destruct (Rlt_dec 10 0); [lra|]. destruct H as [_ H]. destruct H. left. exists ((20, 80), (20, 20)). rewrite sq_sides_of. split; [unfold sq_sides; simpl; tauto|].
      destruct sq_dirs as (D0 & D1 & D2 & D3). unfold beside, dir_of, dot, cross, vec, dist, dist2. cbn [fst snd]. rewrite D3. cbn [fst snd]. rewrite (sqrt_sq _ 60) by lra. lra.
  - apply (Main true (50, 50)%Q); auto.
    + unfold rplace, rq, Q2R. cbn -[IZR Rinv]. f_equal; lra.
    + clear_away_from.
    + clear_away_from.
    + apply ell_in; lra.
    + apply sq_meets; lra.
    + split; [|auto]. intros _. unfold offset_has, Rltb. destruct (Rlt_dec 10 0); [lra|]. split.
      * unfold in_path. rewrite sq_wind. unfold Rleb, Rltb. destruct (Rle_dec 20 50), (Rle_dec 80 50), (Rlt_dec 20 50), (Rlt_dec 80 50); try lra. reflexivity.
      * intro H. apply (along_close r_round (Bevel RF) 10 sq) in H; [|lra|apply (sq_meets (Bevel RF) 50 50); lra]. rewrite sq_sides_of in H. cbn [join_reach] in H.
        destruct H as (e & t & I & T & D). rewrite (Rabs_pos_eq 10) in D by lra. destruct (dist_box (50, 50) (between_pts (fst e) (snd e) t)) as [X Y]. rewrite Rabs_iff in X, Y. unfold between_pts in D, X, Y. unfold sq_sides in I.
        repeat (destruct I as [<-|I]; [cbn [fst snd] in *; lra|]). destruct I.
Qed.
Print Assumptions C53_shapes_only.
Print Assumptions C53_shapes_once.
Print Assumptions C53_outline_shapes_within.
Print Assumptions C53_outline_shapes_keeps.
Print Assumptions C53_outline_shapes_inside.
Print Assumptions C53_outline_shapes.
Print Assumptions C53_several_shapes.
