(** * C49: clipping lines and slicing shapes when crossings are rounded.

    C26, C27 and C46 describe the output exactly, but relative to the rounded arrangement unless no crossing is rounded.  Here the output
    is compared with the lines and contours that were given: [moves items] are the lines, [shape_contours items] the contours (C26),
    [moved] is the distance that [n] rounding passes can add up to (C47). *)
From Verif Require Import Base Spec QLib ModelSegm SegmProofs MergeProofs PlanarGeo PlanarSum ModelFill ModelFilter FillProofs FillCorrect
  ModelCross CrossProofs CrossPoint MarksProofs CoreResults Properties01 ModelSplit SplitProofs SplitPlanar SplitPass BinsProofs SplitApply SplitLoop SplitFlags
  ModelFrag ModelOverlay OverlayProofs FragProofs GridCover Properties02 ModelGraph GraphProofs ModelExtract ExtractProofs ContourResults Rotation NextLink Properties03
  MoveLemma SectorLemma Sides WalkSides Orient ModelBind BindProofs BindSweep Nest Properties04 Properties05 ModelString StringProofs StringResults StringMain Properties07
  AreaWind ModelSlice SliceNext SliceWalk SliceLoops SliceMain SliceString SliceNest SliceShapes SliceFinal Properties14
  SplitNear InputCover Properties15 FloatSpace ModelFloat FloatProofs Rounds StringNear.
From Coq Require Import Lqa Qabs QOrderedType Qminmax.
Open Scope Z_scope.

(** ** Specification *)
(** [near_contour d items q], [near_line d items q]: [q] is within [d] (in x and in y) of a contour, of a line (StringNear.v) *)
Definition is_inside (fr : FillRule) (items : list item) (q : qpt) : bool := inside fr (contours_wind (shape_contours items) q).
(** clipping keeps what is inside the shapes, or what is outside if inverted *)
Definition kept_at (fr : FillRule) (cr : ClipRule) (items : list item) (q : qpt) : bool := if cr_invert cr then negb (is_inside fr items q) else is_inside fr items q.
Definition reachable (solver : Solver) (n : nat) : Q := inject_Z (moved (precision solver) n).

Lemma clip_keeps_same cr b : clip_keeps cr b b = if cr_invert cr then negb b else b.
Proof. unfold clip_keeps. destruct (cr_boundary cr), b; auto. Qed.
Lemma reachable_pos solver n : (0 <= reachable solver n)%Q.
Proof. unfold reachable. change 0%Q with (inject_Z 0). rewrite <- Zle_Qle, <- drift_moved. apply drift_pos. Qed.
Lemma dirs_on s e q : In e (piece_dirs s) -> (on_seg (XS (fst e) (snd e)) q <-> on_seg (sx s) q).
Proof.
  unfold piece_dirs. intro H. apply in_app_or in H as [H|H].
  - destruct (backb (sc s)); [|destruct H]. destruct H as [<-|[]]. cbn [fst snd]. destruct (sx s); tauto.
  - destruct (forwb (sc s)); [|destruct H]. destruct H as [<-|[]]. cbn [fst snd]. destruct (sx s) as [a b]. cbn [sa sb]. split; apply on_seg_swap.
Qed.
Lemma dirs_lined s : lined (sc s) = true <-> exists e, In e (piece_dirs s).
Proof.
  unfold lined, piece_dirs. destruct (backb (sc s)), (forwb (sc s)); simpl; split; intro H; eauto; try discriminate; destruct H as (? & []).
Qed.
Lemma dirs_ends s e : In e (piece_dirs s) -> e = (sa (sx s), sb (sx s)) \/ e = (sb (sx s), sa (sx s)).
Proof.
  unfold piece_dirs. intro H. apply in_app_or in H as [H|H]; [destruct (backb (sc s))|destruct (forwb (sc s))]; try (destruct H; fail); destruct H as [<-|[]]; auto.
Qed.

Section WithContracts.
  Variable layout_new : Z -> Z -> nat -> option (Z -> nat).
  Hypothesis Lay : layout_ok layout_new.
  Variable query : list (nat * xseg) -> Z * Z -> Z -> list (nat * xseg).
  Hypothesis Qry : query_ok query.
  Variable tree_new : Z * Z -> bool.
  Variable sort_ends : list link -> list (nat * pt).
  Hypothesis Ends : forall links, ends_ok links (sort_ends links).
  Variable cw_ordered : list pt -> bool.
  Hypothesis Hcw : cw_ok cw_ordered.
  Notation splitI fuel solver items := (split_segments layout_new query tree_new fuel solver (string_segments items)).
  Notation merged items := (sort_merge (string_segments items)).
  Notation clip_lines := (clip_string_lines layout_new query tree_new sort_ends).
  Notation slice := (slice_by layout_new query tree_new sort_ends cw_ordered).

  Lemma no_moves items m : string_segments items = [] -> In m (moves items) -> fst m = snd m.
  Proof.
    intros E Im. destruct (pt_eq_dec (fst m) (snd m)) as [X|X]; auto. exfalso. destruct m as [a b]. cbn [fst snd] in X.
    assert (exists s, In s (move_seg (a, b))) as (s & Is).
    { unfold move_seg, line_segment. cbn [fst snd]. pose proof (pt_cmp_spec a b) as Cm. destruct (pt_cmp a b); [congruence| |]; eexists; left; reflexivity. }
    assert (In s (string_segments items)) by (apply segments_in; right; eauto). rewrite E in *. auto.
  Qed.

  (** ** Clipping lines *)
  Theorem C49_clip n solver fr cr items out : string_bounded items -> Forall open_contour (shape_contours items) -> no_grid solver (length (merged items)) ->
    (forall arr, splitI (S n) solver items = Done arr -> length arr = 2%nat -> strategy solver = StList) ->
    clip_lines (S n) solver fr cr items = ROk out ->
    (forall e, In e (flat_map steps out) -> exists m, In m (moves items) /\
       within (reachable solver n) (fst m) (snd m) (qof (fst e)) /\ within (reachable solver n) (fst m) (snd m) (qof (snd e))) /\
    (forall e q d, In e (flat_map steps out) -> on_seg (XS (fst e) (snd e)) q -> (reachable solver n < d)%Q -> ~ near_contour d items q -> kept_at fr cr items q = true) /\
    (forall m q d, In m (moves items) -> fst m <> snd m -> on_seg (XS (fst m) (snd m)) q -> (2 * reachable solver n < d)%Q -> ~ near_contour d items q -> kept_at fr cr items q = true ->
       exists e q', In e (flat_map steps out) /\ on_seg (XS (fst e) (snd e)) q' /\ close (reachable solver n) q q').
  Proof.
    intros B Op N L2 H. pose proof (reachable_pos solver n) as D0.
    destruct (string_segments items) as [|s0 l0] eqn:Es.
    { assert (out = []) as ->. { unfold clip_string_lines, build_string in H. rewrite Es in H. cbv in H. congruence. }
      split; [intros e []|]. split; [intros e q d []|]. intros m q d Im Nm. destruct Nm. apply (no_moves items); auto. }
    rewrite <- Es in *. destruct (C26_clip_lines layout_new Lay query Qry tree_new sort_ends Ends (S n) solver fr cr items out B N L2 H) as (_ & _ & arr & Sp & _ & St & Kp).
    specialize (Sp ltac:(rewrite Es; discriminate)).
    destruct (string_done layout_new Lay query Qry tree_new (S n) solver items arr B N Sp) as (I & _ & _). pose proof (inv_wf _ I) as Wf. rewrite Forall_forall in Wf.
    pose proof (string_rounds layout_new Lay query Qry tree_new n solver items arr B N Sp) as R.
    split; [|split].
    - intros e Ie. destruct (St e Ie) as (s & Is & He). destruct (line_source n solver items arr R s Is) as (m & Im & Wa & Wb); [apply dirs_lined; eauto|].
      exists m. split; auto. unfold reachable. destruct (dirs_ends s e He) as [-> | ->]; cbn [fst snd]; auto.
    - intros e q d Ie Oe Ld Nn. destruct (St e Ie) as (s & Is & He). destruct (Kp s e Is He) as (keep & K & Hk). apply Hk in Ie. subst keep.
      unfold kept_at, is_inside. rewrite <- clip_keeps_same. symmetry.
      apply (kept_inside n solver items arr Op R fr cr s e true q (d - reachable solver n)); auto; [apply (dirs_on s e q He); auto|lra|].
      intro X. apply Nn. eapply near_contour_mono; [|exact X]. unfold reachable. lra.
    - intros m q d Im Nm Om Ld Nn Hk. destruct (line_cover n solver items arr R m q Im Nm Om) as (s & q' & Is & Ls & Os & Cl).
      apply dirs_lined in Ls as (e & He). exists e, q'. split; [|split; [apply (dirs_on s e q' He); auto|exact Cl]].
      destruct (Kp s e Is He) as (keep & K & Hiff). apply Hiff.
      rewrite (kept_inside n solver items arr Op R fr cr s e keep q' (d - 2 * reachable solver n)); auto; [|lra|].
      + rewrite clip_keeps_same. unfold kept_at, is_inside in Hk. rewrite (contours_still (reachable solver n) items q q'); auto. intro X. apply Nn. eapply near_contour_mono; [|exact X]. lra.
      + intro X. apply Nn. apply (near_contour_close _ (reachable solver n) _ _ q) in X; [|apply close_sym; exact Cl]. eapply near_contour_mono; [|exact X]. unfold reachable in *. lra.
  Qed.

  (** ** Slicing *)
  Theorem C49_slice n solver dbg fr clockwise items links : string_bounded items -> Forall open_contour (shape_contours items) -> no_grid solver (length (merged items)) ->
    (forall arr, splitI (S n) solver items = Done arr -> length arr = 2%nat -> strategy solver = StList) ->
    string_links layout_new query tree_new (S n) solver fr items = ROk links ->
    exists shapes, slice (S n) solver dbg fr clockwise 0 items = ROk shapes /\ Forall (shape_ok (sign_of clockwise)) shapes /\
      (forall k k' sh sh' q, k <> k' -> nth_error shapes k = Some sh -> nth_error shapes k' = Some sh' -> ~ (covers sh q /\ covers sh' q)) /\
      (forall q, ~ near_contour (reachable solver n) items q -> ((exists sh, In sh shapes /\ covers sh q) <-> is_inside fr items q = true)) /\
      Forall (region_polygon links) (concat shapes) /\ cut_along links shapes /\
      (forall l q, In l links -> on_seg (l_seg l) q -> near_contour (reachable solver n) items q \/ near_line (reachable solver n) items q) /\
      (forall m q, In m (moves items) -> fst m <> snd m -> on_seg (XS (fst m) (snd m)) q -> exists l q', In l links /\ on_seg (l_seg l) q' /\ close (reachable solver n) q q') /\
      (forall l q d, In l links -> on_seg (l_seg l) q -> (reachable solver n < d)%Q -> ~ near_contour d items q -> above l = is_inside fr items q /\ beneath l = is_inside fr items q).
  Proof.
    intros B Op N L2 H. pose proof (reachable_pos solver n) as D0.
    destruct (C46_slice layout_new Lay query Qry tree_new sort_ends Ends cw_ordered Hcw (S n) solver dbg fr clockwise items links B N L2 H) as (arr & shapes & Sp & El & Hs & (Ok & Dj & Cv) & Rp & Cut).
    destruct (C27_flags layout_new Lay query Qry tree_new (S n) solver fr items links B N L2 H) as (arr' & Sp' & El' & Fl).
    exists shapes. split; auto. split; auto. split; auto.
    destruct (string_segments items) as [|s0 l0] eqn:Es.
    { assert (links = []) as ->. { unfold string_links, build_string in H. rewrite Es in H. congruence. }
      assert (arr = []) as -> by (destruct arr; auto; discriminate).
      split; [|split; [|split; [|split; [|split]]]]; auto; try (intros l q []; fail).
      - intros q _. rewrite Cv. unfold is_inside. rewrite <- string_wind, Es by auto. tauto.
      - intros m q Im Nm. destruct Nm. apply (no_moves items); auto.
      - intros l q d []. }
    rewrite <- Es in *. specialize (Sp ltac:(rewrite Es; discriminate)). specialize (Sp' ltac:(rewrite Es; discriminate)). rewrite Sp in Sp'. injection Sp' as <-.
    destruct (string_done layout_new Lay query Qry tree_new (S n) solver items arr B N Sp) as (I & _ & _). pose proof (inv_wf _ I) as Wf. rewrite Forall_forall in Wf.
    pose proof (string_rounds layout_new Lay query Qry tree_new n solver items arr B N Sp) as R.
    assert (Ls : forall l, In l links -> exists j s, nth_error links j = Some l /\ nth_error arr j = Some s /\ l_seg l = sx s).
    { intros l Il. apply In_nth_error in Il as (j & Ej). pose proof (map_nth_error l_seg j links Ej) as X. rewrite El, nth_error_map in X. destruct (nth_error arr j) as [s|] eqn:Ea; [|discriminate].
      injection X as X. eauto. }
    split; [|split; [|split; [|split; [|split]]]]; auto.
    - intros q Nq. rewrite Cv. unfold is_inside. rewrite (arr_wind n solver items arr Op R q Nq). tauto.
    - intros l q Il Oq. destruct (Ls l Il) as (j & s & _ & Ea & Ex). rewrite Ex in Oq. apply nth_error_In in Ea.
      destruct (split_is_loop layout_new query tree_new (S n) solver (string_segments items) N) as [(_ & _ & E)|(tree & E & _)]; rewrite E in Sp; [discriminate|].
      destruct (loop_edges layout_new Lay query Qry tree_new solver n tree _ _ _ (string_inv items B) Sp s Ea) as (s0' & I0 & Wa & Wb).
      unfold snap_radius in Wa, Wb. rewrite drift_moved in Wa, Wb. fold (reachable solver n) in Wa, Wb.
      assert (Wq : within (reachable solver n) (sa (sx s0')) (sb (sx s0')) q).
      { apply (within_mono (reachable solver n + 0)); [lra|]. apply (within_trans _ 0 _ _ (sa (sx s)) (sb (sx s))); [exact Wa|exact Wb|exact (within_on (sx s) q Oq)]. }
      assert (F : Forall (fun t : segment cntS => within (reachable solver n) (sa (sx t)) (sb (sx t)) q -> near_contour (reachable solver n) items q \/ near_line (reachable solver n) items q) (merged items)).
      { apply (sort_merge_elems (fun x => within (reachable solver n) (sa x) (sb x) q -> near_contour (reachable solver n) items q \/ near_line (reachable solver n) items q)).
        apply Forall_forall. intros t It Wt. apply segments_in in It as [(c & Ic & It)|(m & Im & It)].
        - left. rewrite Forall_forall in Op. destruct (append_near c Subject _ q t (Op c Ic) It Wt) as (e & Ie & We). exists c, e. auto.
        - right. exists m. split; auto. apply move_seg_in in It as (_ & _ & _ & [[Et _]|[Et _]]); rewrite Et in Wt; cbn [sa sb] in Wt; auto. apply within_swap. auto. }
      rewrite Forall_forall in F. apply (F s0' I0 Wq).
    - intros m q Im Nm Om. destruct (line_cover n solver items arr R m q Im Nm Om) as (s & q' & Is & _ & Os & Cl). apply In_nth_error in Is as (j & Ej).
      pose proof (map_nth_error sx j arr Ej) as X. rewrite <- El, nth_error_map in X. destruct (nth_error links j) as [l|] eqn:Eq; [|discriminate]. injection X as X.
      exists l, q'. split; [eapply nth_error_In; eauto|]. split; [rewrite X; auto|exact Cl].
    - intros l q d Il Oq Ld Nn. destruct (Ls l Il) as (j & s & Ej & Ea & Ex). rewrite Ex in Oq. destruct (Fl j l s Ej Ea) as [_ Fq].
      pose proof (Wf s (nth_error_In _ _ Ea)) as Ws. set (eps := (d - reachable solver n)%Q).
      destruct (interior_near (sx s) q (eps * (1 # 2)) Ws Oq) as (q1 & O1 & C1); [unfold eps; lra|]. destruct (Fq q1 O1) as (e0 & E0 & Hk).
      set (h := (Qmin e0 eps * (1 # 2))%Q). assert (Ep : (0 < eps)%Q) by (unfold eps; lra).
      assert (Hd : (0 < h < e0)%Q /\ (h <= eps * (1 # 2))%Q) by (unfold h; destruct (Q.min_spec e0 eps) as [[Hm ->]|[Hm ->]]; split; try split; lra).
      destruct Hd as [Hd1 Hd2]. specialize (Hk h Hd1).
      assert (P : forall p, close h q1 p -> wind (chain_of ssubj arr) p = contours_wind (shape_contours items) q).
      { intros p Cp. assert (Cq : close eps q p) by (eapply close_mono; [|eapply close_trans; eauto]; lra).
        rewrite (arr_wind n solver items arr Op R).
        - apply (contours_still eps); auto; [lra|]. intro X. apply Nn. eapply near_contour_mono; [|exact X]. unfold eps. lra.
        - intro X. apply Nn. apply (near_contour_close _ eps _ _ q) in X; [|apply close_sym; auto]. eapply near_contour_mono; [|exact X]. unfold eps, reachable. lra. }
      unfold above, beneath, is_inside. rewrite !P in Hk; auto.
      + unfold bottom_side. destruct (_ =? _); split; cbn [fst snd]; apply Qabs_le_iff; split; lra.
      + unfold top_side. destruct (_ =? _); split; cbn [fst snd]; apply Qabs_le_iff; split; lra.
  Qed.
End WithContracts.

(** ** Examples *)
(** a frame with a hole, whose edges two lines cross at points that are not integer *)
Definition frame_items : list item :=
  [SContour [Pt 0 0; Pt 1000 37; Pt 1017 1003; Pt 13 990]; SContour [Pt 300 300; Pt 290 700; Pt 707 690; Pt 690 311]; SLine (Pt (-500) 211) (Pt 1500 703); SLine (Pt 500 650) (Pt 551 1403)].
Example frame_bounded : string_bounded frame_items. Proof. repeat constructor. Qed.
Example frame_open : Forall open_contour (shape_contours frame_items). Proof. repeat (constructor; [left; discriminate|]). constructor. Qed.
Example frame_grid : no_grid (mk_solver StAuto) (length (sort_merge (string_segments frame_items))). Proof. left. vm_compute. reflexivity. Qed.
Example frame_not_two : forall arr, split_segments lay4 qry (fun _ => true) 2 (mk_solver StAuto) (string_segments frame_items) = Done arr -> length arr = 2%nat -> strategy (mk_solver StAuto) = StList.
Proof. intros arr H L. exfalso. vm_compute in H. injection H as <-. discriminate. Qed.
(** one pass of splitting is not enough, two are, and nothing is moved by more than 2 *)
Example frame_clip : clip_string_lines lay4 qry (fun _ => true) sorted_ends 1 (mk_solver StAuto) NonZero (CR false false) frame_items = RFuel /\
  clip_string_lines lay4 qry (fun _ => true) sorted_ends 2 (mk_solver StAuto) NonZero (CR false false) frame_items =
    ROk [[Pt 4 335; Pt 297 407]; [Pt 503 695; Pt 523 997]; [Pt 699 506; Pt 1010 582]] /\ reachable (mk_solver StAuto) 1 = inject_Z 2.
Proof. vm_compute. auto. Qed.
Example frame_clip_ok := C49_clip lay4 lay4_ok qry qry_ok (fun _ => true) sorted_ends sorted_ends_ok 1 (mk_solver StAuto) NonZero (CR false false) frame_items _
  frame_bounded frame_open frame_grid frame_not_two (proj1 (proj2 frame_clip)).
Example frame_slice : exists links sh1 sh2 sh3, string_links lay4 qry (fun _ => true) 2 (mk_solver StAuto) NonZero frame_items = ROk links /\
  slice_by lay4 qry (fun _ => true) sorted_ends cw_area 2 (mk_solver StAuto) true NonZero false 0 frame_items = ROk [sh1; sh2; sh3] /\ length links = 22%nat.
Proof. do 4 eexists. vm_compute. auto. Qed.
Example frame_slice_ok links H := C49_slice lay4 lay4_ok qry qry_ok (fun _ => true) sorted_ends sorted_ends_ok cw_area cw_area_ok 1 (mk_solver StAuto) true NonZero false frame_items links
  frame_bounded frame_open frame_grid frame_not_two H.
Ltac not_near_contour :=
  let c := fresh in let e := fresh in let Ic := fresh in let Ie := fresh in let X := fresh in let Y := fresh in
  intros (c & e & Ic & Ie & (? & ? & X & Y)); rewrite Qabs_le_iff in X, Y;
  repeat (destruct Ic as [Ic|Ic]; [subst c; simpl in Ie; repeat (destruct Ie as [<-|Ie]; [unfold qx, qy in *; cbn [fst snd px py] in *; unfold inject_Z in *; lra|]); destruct Ie|]);
  destruct Ic.
(** a point of the first line, inside the frame and far from its edges: it must be in the output, give or take 2 *)
Example frame_point : let q := (inject_Z 100, 1793 # 5) in
  on_seg (XS (Pt (-500) 211) (Pt 1500 703)) q /\ (2 * reachable (mk_solver StAuto) 1 < 5)%Q /\ ~ near_contour 5 frame_items q /\ kept_at NonZero (CR false false) frame_items q = true.
Proof.
  cbv zeta. split; [|split; [|split]].
  - exists (3 # 10). cbn [sa sb fst snd]. split; [lra|]. split; reflexivity.
  - vm_compute. reflexivity.
  - not_near_contour.
  - vm_compute. reflexivity.
Qed.

Print Assumptions C49_clip.
Print Assumptions C49_slice.
