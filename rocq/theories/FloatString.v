(** * Clipping and slicing with floating point coordinates: from the grid back to what was given. *)
From Verif Require Import Base Spec QLib ModelSegm SegmProofs MergeProofs PlanarGeo PlanarSum ModelFill ModelFilter FillProofs FillCorrect
  ModelCross CrossProofs CrossPoint MarksProofs CoreResults Properties01 ModelSplit SplitProofs SplitPlanar SplitPass BinsProofs SplitApply SplitLoop SplitFlags
  ModelFrag ModelOverlay OverlayProofs FragProofs GridCover Properties02 ModelGraph GraphProofs ModelExtract ExtractProofs ContourResults Rotation NextLink Properties03
  MoveLemma SectorLemma Sides WalkSides Orient ModelBind BindProofs BindSweep Nest Properties04 Properties05 ModelString StringProofs StringResults StringMain Properties07
  AreaWind ModelSlice SliceNext SliceWalk SliceLoops SliceMain SliceString SliceNest SliceShapes SliceFinal Properties14
  SplitNear InputCover Properties15 ModelFloat FloatSpace FloatProofs OverlayNear FloatMain Rounds StringNear Properties17.
From Coq Require Import Lqa Qabs.
Open Scope Z_scope.

(** the strings after snapping: contours [S], lines along the paths [L] *)
Definition grid_items (a : adapter) (S L : list (list qpt)) : list item :=
  map (fun c => SContour (map (float_to_int a) c)) S ++ flat_map (fun path => map (fun w => SLine (float_to_int a (fst w)) (float_to_int a (snd w))) (windows2 path)) L.
Definition fmoves (L : list (list qpt)) : list (qpt * qpt) := flat_map windows2 L.

Lemma fold_shapes cs : forall o, fold_left add_shape_contour cs o = FStrings (fs_items o ++ map (fun c => SContour (map (float_to_int (fs_adapter o)) c)) cs) (fs_adapter o).
Proof.
  induction cs as [|c cs IH]; intro o; cbn [fold_left map]; [rewrite app_nil_r; destruct o; auto|]. rewrite IH. unfold add_shape_contour. cbn [fs_items fs_adapter]. rewrite <- app_assoc. reflexivity.
Qed.
Lemma fold_line path : forall o, add_string_line o path = FStrings (fs_items o ++ map (fun w => SLine (float_to_int (fs_adapter o) (fst w)) (float_to_int (fs_adapter o) (snd w))) (windows2 path)) (fs_adapter o).
Proof.
  unfold add_string_line. generalize (windows2 path). induction l as [|w l IH]; intro o; cbn [fold_left map]; [rewrite app_nil_r; destruct o; auto|]. rewrite IH. cbn [fs_items fs_adapter]. rewrite <- app_assoc. reflexivity.
Qed.
Lemma fold_lines L : forall o, fold_left add_string_line L o = FStrings (fs_items o ++ flat_map (fun path => map (fun w => SLine (float_to_int (fs_adapter o) (fst w)) (float_to_int (fs_adapter o) (snd w))) (windows2 path)) L) (fs_adapter o).
Proof.
  induction L as [|p L IH]; intro o; cbn [fold_left flat_map]; [rewrite app_nil_r; destruct o; auto|]. rewrite IH, fold_line. cbn [fs_items fs_adapter]. rewrite <- app_assoc. reflexivity.
Qed.
Lemma strings_spec with_iter calls shape lines : (length (paths_of shape) < calls)%nat -> (length (paths_of lines) < calls)%nat ->
  with_shape_and_string with_iter calls shape lines =
    let a := with_iter (concat (paths_of shape ++ paths_of lines)) in Some (FStrings (grid_items a (paths_of shape) (paths_of lines)) a).
Proof. intros X Y. unfold with_shape_and_string. rewrite !iter_ok by auto. rewrite fold_lines, fold_shapes. reflexivity. Qed.

Lemma windows2_in {A} (l : list A) w : In w (windows2 l) -> In (fst w) l /\ In (snd w) l.
Proof.
  induction l as [|x [|y l] IH]; intro I; try destruct I as [<-|I]; simpl; auto. destruct (IH I) as [X Y]. split; right; auto.
Qed.
Lemma windows2_map {A B} (f : A -> B) (l : list A) : windows2 (map f l) = map (fun w => (f (fst w), f (snd w))) (windows2 l).
Proof. induction l as [|x [|y l] IH]; auto. cbn [map windows2] in *. cbn [fst snd]. f_equal. exact IH. Qed.
Lemma windows2_steps (l : list pt) : windows2 l = steps l.
Proof. unfold steps. induction l as [|x [|y l] IH]; auto. cbn [windows2 tl combine] in *. f_equal. exact IH. Qed.

Section Adapter.
  Variables (a : adapter) (s : Q) (o : qpt) (kappa delta : Q) (Sc L : list (list qpt)).
  Hypothesis Ok : adapter_ok a s o kappa delta (concat (Sc ++ L)).
  Notation Hs := (ok_s _ _ _ _ _ _ Ok).
  Notation items := (grid_items a Sc L).
  Notation i2 := (float_to_int a).

  Lemma items_contours : shape_contours items = map (map i2) Sc.
  Proof.
    unfold shape_contours, grid_items. rewrite flat_map_app. replace (flat_map _ (map _ Sc)) with (map (map i2) Sc).
    - replace (flat_map _ (flat_map _ L)) with (@nil (list pt)); [apply app_nil_r|]. symmetry. clear. induction L as [|p l IH]; auto. cbn [flat_map]. rewrite flat_map_app, IH, app_nil_r.
      generalize (windows2 p). induction l0 as [|w l0 IH0]; auto.
    - clear. induction Sc as [|c l IH]; auto. cbn [map flat_map app]. f_equal. exact IH.
  Qed.
  Lemma items_moves : moves items = map (fun w => (i2 (fst w), i2 (snd w))) (fmoves L).
  Proof.
    unfold moves, grid_items, fmoves. rewrite flat_map_app. replace (flat_map _ (map _ Sc)) with (@nil (pt * pt)).
    - cbn [app]. clear. induction L as [|p l IH]; auto. cbn [flat_map]. rewrite flat_map_app, map_app. f_equal; [|exact IH]. generalize (windows2 p). induction l0 as [|w l0 IH0]; auto. cbn [map flat_map item_moves app]. f_equal. exact IH0.
    - clear. induction Sc as [|c l IH]; auto.
  Qed.
  Lemma pt_in c p : In c (Sc ++ L) -> In p c -> In p (concat (Sc ++ L)).
  Proof. intros Ic Ip. apply in_concat. eauto. Qed.
  Lemma fmove_in w : In w (fmoves L) -> In (fst w) (concat (Sc ++ L)) /\ In (snd w) (concat (Sc ++ L)).
  Proof.
    intro I. apply in_flat_map in I as (p & Ip & I). apply windows2_in in I as [X Y]. split; eapply pt_in; eauto; apply in_or_app; auto.
  Qed.
  Lemma items_bounded : string_bounded items.
  Proof.
    pose proof (ok_range _ _ _ _ _ _ Ok) as B. unfold string_bounded. apply Forall_forall. intros it It. unfold grid_items in It. apply in_app_or in It as [It|It].
    - apply in_map_iff in It as (c & <- & Ic). cbn [item_points]. apply Forall_forall. intros p Ip. apply in_map_iff in Ip as (p' & <- & Ip). apply B. eapply pt_in; eauto. apply in_or_app; auto.
    - apply in_flat_map in It as (path & Ip & It). apply in_map_iff in It as (w & <- & Iw). destruct (windows2_in _ _ Iw) as [X Y]. cbn [item_points].
      constructor; [|constructor; [|constructor]]; apply B; eapply pt_in; eauto; apply in_or_app; auto.
  Qed.

  Lemma grid_pos d : (0 <= d)%Q -> (0 <= s * d)%Q. Proof. intro H. apply Qmult_le_0_compat; auto. pose proof Hs. lra. Qed.
  (** what was given near [q], when what was snapped is near [q] on the grid *)
  Lemma near_contour_float d q : near_contour d items (unplace s o q) -> close_to (s * kappa + s * d) Sc q.
  Proof.
    intros (c & e & Ic & Ie & W). rewrite items_contours in Ic. apply in_map_iff in Ic as (c' & <- & Ic).
    rewrite <- ring_edges, ring_map in Ie. apply in_map_iff in Ie as (e' & <- & Ie). cbn [fst snd] in W. apply (within_place s o Hs) in W.
    assert (P : In (fst e') c' /\ In (snd e') c').
    { destruct c' as [|x l]; [destruct Ie|]. unfold ring in Ie. destruct e' as [u v]. split; [eapply in_combine_l; eauto|]. apply in_combine_r in Ie. apply in_app_iff in Ie as [Ie|[<-|[]]]; simpl; auto. }
    exists c', e'. split; auto. split; auto. eapply qwithin_move; [| |exact W]; apply (ok_in _ _ _ _ _ _ Ok); apply (pt_in c'); try (apply in_or_app; auto; fail); tauto.
  Qed.
  Lemma near_line_float d q : near_line d items (unplace s o q) -> exists w, In w (fmoves L) /\ qwithin (s * kappa + s * d) (fst w) (snd w) q.
  Proof.
    intros (m & Im & W). rewrite items_moves in Im. apply in_map_iff in Im as (w & <- & Iw). cbn [fst snd] in W. apply (within_place s o Hs) in W. destruct (fmove_in w Iw) as [X Y].
    exists w. split; auto. eapply qwithin_move; [| |exact W]; apply (ok_in _ _ _ _ _ _ Ok); auto.
  Qed.
  Lemma snap_winds q : far_from (s * kappa) Sc q -> contours_wind (shape_contours items) (unplace s o q) = qcontours_wind Sc q.
  Proof.
    intro F. rewrite items_contours. unfold contours_wind, qcontours_wind. rewrite zsum_map. apply zsum_ext_in. intros c Ic.
    set (fadds := map (fun c => (c, Subject)) (Sc ++ L)). assert (E : map fst fadds = Sc ++ L) by (unfold fadds; rewrite map_map; apply map_id).
    apply (snap_contour a s o kappa delta fadds); [rewrite E; exact Ok|rewrite E; apply in_or_app; auto|intros e Ie; apply (F c e Ic Ie)].
  Qed.
  Lemma close_unplace d p q : close (s * d) p q -> close d (unplace s o p) (unplace s o q).
  Proof.
    pose proof Hs. intros [X Y]. apply Qabs_le_iff in X, Y. rewrite (unplace_x s o Hs p), (unplace_x s o Hs q) in X. rewrite (unplace_y s o Hs p), (unplace_y s o Hs q) in Y.
    assert (K : forall x y, (- (s * d) <= fst o + s * x - (fst o + s * y) <= s * d)%Q -> (- d <= x - y <= d)%Q) by (intros x y [A B]; split; apply (le_scale s Hs); lra).
    assert (K' : forall x y, (- (s * d) <= snd o + s * x - (snd o + s * y) <= s * d)%Q -> (- d <= x - y <= d)%Q) by (intros x y [A B]; split; apply (le_scale s Hs); lra).
    split; apply Qabs_le_iff; auto.
  Qed.
  (** points near to each other, far from what was given, see the same on the grid *)
  Lemma same_side d q q1 : (0 <= d)%Q -> close d q q1 -> far_from (s * kappa + d) Sc q -> contours_wind (shape_contours items) (unplace s o q1) = qcontours_wind Sc q.
  Proof.
    intros D Cq F. pose proof Hs. set (d' := (d / s)%Q). assert (E : (s * d' == d)%Q) by (unfold d'; field; lra).
    assert (D' : (0 <= d')%Q) by (apply (le_scale s Hs); lra).
    rewrite <- (snap_winds q) by (eapply far_mono; [|exact F]; lra). apply (contours_still d'); auto.
    - apply close_unplace. destruct Cq as [A B]. split; lra.
    - intro X. apply near_contour_float in X as (c & e & Ic & Ie & W). apply (F c e Ic Ie). eapply qwithin_mono; [|exact W]. lra.
  Qed.
  (** a point at parameter [t] of a segment, in four places: given or returned, on the grid *)
  Definition at_t (t : Q) (x y : qpt) : qpt := (fst x + t * (fst y - fst x), snd x + t * (snd y - snd x))%Q.
  Lemma at_close d t x y x' y' : (0 <= t <= 1)%Q -> close d x x' -> close d y y' -> close d (at_t t x y) (at_t t x' y').
  Proof.
    intros T [A B] [A' B']. apply Qabs_le_iff in A, B, A', B'. unfold at_t. split; cbn [fst snd]; apply Qabs_le_iff.
    - pose proof (mix_bound (fst x - fst x') (fst y - fst y') t d T A A'). split; lra.
    - pose proof (mix_bound (snd x - snd x') (snd y - snd y') t d T B B'). split; lra.
  Qed.
  Lemma at_place t x y : (0 <= t <= 1)%Q -> on_seg (XS x y) (unplace s o (at_t t (place s o x) (place s o y))).
  Proof. intros T. apply (unplace_between a s o kappa delta (map (fun c => (c, Subject)) (Sc ++ L))) with (t := t); auto.
    - rewrite map_map. cbn [fst]. rewrite map_id. exact Ok.
    - unfold at_t, close; cbn [fst snd]. split; apply Qabs_le_iff; split; lra.
  Qed.
  Lemma qwithin_at t x y : (0 <= t <= 1)%Q -> qwithin 0 x y (at_t t x y).
  Proof. intro T. exists t. split; auto. unfold at_t; cbn [fst snd]. split; apply Qabs_le_iff; split; lra. Qed.
  Lemma at_within x y q : qwithin 0 x y q -> exists t, (0 <= t <= 1)%Q /\ close 0 q (at_t t x y).
  Proof. intros (t & T & X & Y). exists t. split; auto. split; auto. Qed.
  Lemma bounded_out p : bounded_pt p -> close delta (int_to_float a p) (place s o p).
  Proof. intros [X Y]. apply (ok_out _ _ _ _ _ _ Ok); lia. Qed.

  (** ** Clipping *)
  Variables (n : nat) (solver : Solver) (fr : FillRule) (cr : ClipRule) (out : list (list pt)).
  Notation D := (reachable solver n).
  Hypothesis Bd : forall e, In e (flat_map steps out) -> bounded_pt (fst e) /\ bounded_pt (snd e).
  Notation fout := (map (map (int_to_float a)) out).
  Definition fkept (q : qpt) : bool := if cr_invert cr then negb (inside fr (qcontours_wind Sc q)) else inside fr (qcontours_wind Sc q).

  Lemma fout_steps e : In e (fmoves fout) <-> exists e', In e' (flat_map steps out) /\ e = (int_to_float a (fst e'), int_to_float a (snd e')).
  Proof.
    unfold fmoves. rewrite in_flat_map. split.
    - intros (p & Ip & I). apply in_map_iff in Ip as (p' & <- & Ip). rewrite windows2_map, windows2_steps in I. apply in_map_iff in I as (e' & <- & I). exists e'. split; auto. apply in_flat_map. eauto.
    - intros (e' & I & ->). apply in_flat_map in I as (p & Ip & I). exists (map (int_to_float a) p). split; [apply in_map; auto|]. rewrite windows2_map, windows2_steps. apply in_map_iff. eauto.
  Qed.
  Lemma fclip_near : (forall e, In e (flat_map steps out) -> exists m, In m (moves items) /\ within D (fst m) (snd m) (qof (fst e)) /\ within D (fst m) (snd m) (qof (snd e))) ->
    forall e, In e (fmoves fout) -> exists m, In m (fmoves L) /\ qwithin (s * kappa + s * D + delta) (fst m) (snd m) (fst e) /\ qwithin (s * kappa + s * D + delta) (fst m) (snd m) (snd e).
  Proof.
    intros H e Ie. pose proof Hs. apply fout_steps in Ie as (e' & Ie & ->). destruct (Bd e' Ie) as [B1 B2]. destruct (H e' Ie) as (m & Im & W1 & W2).
    rewrite items_moves in Im. apply in_map_iff in Im as (w & <- & Iw). cbn [fst snd] in *. destruct (fmove_in w Iw) as [X Y].
    assert (K : forall p, bounded_pt p -> within D (i2 (fst w)) (i2 (snd w)) (qof p) -> qwithin (s * kappa + s * D + delta) (fst w) (snd w) (int_to_float a p)).
    { intros p Bp W. eapply qwithin_close; [|apply close_sym, bounded_out; auto]. eapply qwithin_move; [apply (ok_in _ _ _ _ _ _ Ok); auto|apply (ok_in _ _ _ _ _ _ Ok); auto|].
      apply (within_place s o Hs). eapply within_comp; [| |exact W]; unfold unplace, place, qof; cbn [fst snd]; unfold qx, qy; field; lra. }
    exists w. auto.
  Qed.
  Lemma fclip_sound : (forall e q d, In e (flat_map steps out) -> on_seg (XS (fst e) (snd e)) q -> (D < d)%Q -> ~ near_contour d items q -> kept_at fr cr items q = true) ->
    forall e q d, In e (fmoves fout) -> qwithin 0 (fst e) (snd e) q -> (s * kappa + s * D + delta < d)%Q -> far_from d Sc q -> fkept q = true.
  Proof.
    intros H e q d Ie W Ld F. pose proof Hs. pose proof (ok_d _ _ _ _ _ _ Ok). pose proof (grid_pos kappa (ok_k _ _ _ _ _ _ Ok)). pose proof (grid_pos D (reachable_pos solver n)).
    apply fout_steps in Ie as (e' & Ie & ->). destruct (Bd e' Ie) as [B1 B2]. cbn [fst snd] in W. apply at_within in W as (t & T & Cq).
    set (q1 := at_t t (place s o (fst e')) (place s o (snd e'))).
    assert (C1 : close delta q q1).
    { eapply close_mono; [|eapply close_trans; [exact Cq|apply (at_close delta); [exact T|apply bounded_out; exact B1|apply bounded_out; exact B2]]]. lra. }
    set (d' := ((d - s * kappa - delta) / s)%Q). assert (E' : (s * d' == d - s * kappa - delta)%Q) by (unfold d'; field; lra).
    assert (K : kept_at fr cr items (unplace s o q1) = true).
    { apply (H e' (unplace s o q1) d'); auto; [apply at_place; auto|apply (Qmult_lt_l D d' s); lra|]. intro X. apply near_contour_float in X as (c & x & Ic & Ix & W). apply (F c x Ic Ix).
      eapply qwithin_mono; [|eapply qwithin_close; [exact W|apply close_sym; exact C1]]. lra. }
    unfold kept_at, is_inside in K. rewrite (same_side delta q q1) in K; auto. eapply far_mono; [|exact F]. lra.
  Qed.
  Lemma fclip_complete : (forall m q d, In m (moves items) -> fst m <> snd m -> on_seg (XS (fst m) (snd m)) q -> (2 * D < d)%Q -> ~ near_contour d items q -> kept_at fr cr items q = true ->
       exists e q', In e (flat_map steps out) /\ on_seg (XS (fst e) (snd e)) q' /\ close D q q') ->
    forall m q d, In m (fmoves L) -> i2 (fst m) <> i2 (snd m) -> qwithin 0 (fst m) (snd m) q -> (2 * (s * kappa + s * D) < d)%Q -> far_from d Sc q -> fkept q = true ->
      exists e q', In e (fmoves fout) /\ qwithin 0 (fst e) (snd e) q' /\ close (s * kappa + s * D + delta) q q'.
  Proof.
    intros H m q d Im Nm W Ld F Kp. pose proof Hs. pose proof (ok_d _ _ _ _ _ _ Ok). pose proof (grid_pos kappa (ok_k _ _ _ _ _ _ Ok)). pose proof (grid_pos D (reachable_pos solver n)).
    destruct (fmove_in m Im) as [P1 P2]. apply at_within in W as (t & T & Cq). set (q1 := at_t t (place s o (i2 (fst m))) (place s o (i2 (snd m)))).
    assert (C1 : close (s * kappa) q q1).
    { eapply close_mono; [|eapply close_trans; [exact Cq|apply (at_close (s * kappa)); [exact T|apply close_sym, (ok_in _ _ _ _ _ _ Ok); exact P1|apply close_sym, (ok_in _ _ _ _ _ _ Ok); exact P2]]]. lra. }
    set (d' := ((d - 2 * (s * kappa)) / s)%Q). assert (E' : (s * d' == d - 2 * (s * kappa))%Q) by (unfold d'; field; lra).
    assert (K : kept_at fr cr items (unplace s o q1) = true).
    { unfold kept_at, is_inside. rewrite (same_side (s * kappa) q q1); auto. eapply far_mono; [|exact F]. lra. }
    destruct (H (i2 (fst m), i2 (snd m)) (unplace s o q1) d') as (e & q' & Ie & Oe & Ce); auto.
    - rewrite items_moves. apply in_map_iff. eauto.
    - apply at_place; auto.
    - apply (Qmult_lt_l (2 * D) d' s); lra.
    - intro X. apply near_contour_float in X as (c & x & Ic & Ix & W). apply (F c x Ic Ix). eapply qwithin_mono; [|eapply qwithin_close; [exact W|apply close_sym; exact C1]]. lra.
    - destruct (Bd e Ie) as [B1 B2]. destruct Oe as (u & U & X & Y). cbn [sa sb] in X, Y.
      exists (int_to_float a (fst e), int_to_float a (snd e)), (at_t u (int_to_float a (fst e)) (int_to_float a (snd e))). split; [apply fout_steps; eauto|]. split; [apply qwithin_at; auto|].
      eapply close_mono; [|eapply close_trans; [exact C1|eapply close_trans; [|apply close_sym; apply (at_close delta u _ _ (place s o (fst e)) (place s o (snd e))); auto; apply bounded_out; auto]]]; [|].
      2: { assert (close (s * D) q1 (at_t u (place s o (fst e)) (place s o (snd e)))); [|eassumption]. destruct Ce as [Ca Cb]. apply Qabs_le_iff in Ca, Cb. rewrite X in Ca. rewrite Y in Cb.
           assert (M : forall x y, (- D <= x - y <= D)%Q -> (- (s * D) <= s * x - s * y <= s * D)%Q) by (intros x y Hxy; pose proof (mul_range s (x - y) D ltac:(lra) Hxy); split; lra).
           pose proof (M _ _ Ca). pose proof (M _ _ Cb). pose proof (unplace_x s o Hs q1) as Ux. pose proof (unplace_y s o Hs q1) as Uy. clearbody q1. split; apply Qabs_le_iff; unfold at_t, place; cbn [fst snd]; split; lra. }
      lra.
  Qed.
End Adapter.

(** ** Shapes that do not overlap: how often the contours run around a point in total *)
Lemma disjoint_zero hs q d : (d = 1 \/ d = -1) -> Forall (turns d) hs -> Forall (fun h => ~ encloses h q) hs -> contours_wind hs q = 0.
Proof.
  intros _ _ F. unfold contours_wind. apply zsum_zero. rewrite Forall_forall in F. intros h Ih. specialize (F h Ih). unfold encloses in F. lia.
Qed.
Lemma shape_total d sh q : (d = 1 \/ d = -1) -> shape_ok d sh -> (covers sh q -> contours_wind sh q = d) /\ (~ covers sh q -> contours_wind sh q = 0).
Proof.
  intros Hd (o & hs & -> & To & Th & Hin & Dj & Tot).
  assert (W : forall e c, turns e c -> contour_wind c q = 0 \/ contour_wind c q = e) by (intros e c [T _]; apply T).
  assert (Es : contours_wind (o :: hs) q = contour_wind o q + contours_wind hs q) by (unfold contours_wind; rewrite zsum_cons; reflexivity).
  split.
  - intros [Eo En]. rewrite Es, (disjoint_zero hs q (- d)); auto; [|lia|apply Forall_forall; auto]. destruct (W d o To) as [X|X]; [contradiction|lia].
  - intro Nc. destruct (Z.eq_dec (contour_wind o q) 0) as [E|E].
    + rewrite Es, E. rewrite (disjoint_zero hs q (- d)); auto; [lia|]. apply Forall_forall. intros h Ih Eh. apply (Hin h q Ih Eh). auto.
    + assert (exists h, In h hs /\ encloses h q) as (h & Ih & Eh).
      { clear - Nc E. assert (D : forall l, (exists h, In h l /\ encloses h q) \/ forall h, In h l -> ~ encloses h q).
        { induction l as [|x l [(h & I & X)|IH]]; [right; intros h []|left; exists h; split; simpl; auto|].
          unfold encloses at 1. destruct (Z.eq_dec (contour_wind x q) 0) as [X|X]; [right; intros h [<-|I]; auto|left; exists x; split; simpl; auto]. }
        destruct (D hs) as [X|X]; auto. destruct Nc. split; auto. }
      destruct (Tot q) as [T|T]; auto. exfalso. rewrite Es in T. destruct (W d o To) as [Wo|Wo]; [contradiction|].
      assert (Hh : contours_wind hs q = 0) by lia. clear - Hh Ih Eh Th Hd W. unfold contours_wind in Hh. rewrite Forall_forall in Th.
      assert (S1 : forall l, (forall c, In c l -> contour_wind c q = 0 \/ contour_wind c q = - d) -> zsum (fun c => contour_wind c q) l * d <= 0 /\ (forall c, In c l -> contour_wind c q <> 0 -> zsum (fun c => contour_wind c q) l * d < 0)).
      { induction l as [|x l IH]; intro H; [split; [reflexivity|intros c []]|]. rewrite zsum_cons. destruct (IH (fun c I => H c (or_intror I))) as [A B]. destruct (H x (or_introl eq_refl)) as [X|X]; rewrite X.
        - split; [lia|]. intros c [<-|I] N; [contradiction|]. specialize (B c I N). lia.
        - split; [destruct Hd; subst d; lia|]. intros c _ _. destruct Hd; subst d; lia. }
      destruct (S1 hs) as [_ B]; [intros c Ic; apply (W (- d)); auto|]. specialize (B h Ih Eh). rewrite Hh in B. lia.
Qed.
Lemma shapes_total d shapes q : (d = 1 \/ d = -1) -> Forall (shape_ok d) shapes ->
  (forall k k' sh sh', k <> k' -> nth_error shapes k = Some sh -> nth_error shapes k' = Some sh' -> ~ (covers sh q /\ covers sh' q)) ->
  ((exists sh, In sh shapes /\ covers sh q) -> contours_wind (concat shapes) q = d) /\ (~ (exists sh, In sh shapes /\ covers sh q) -> contours_wind (concat shapes) q = 0).
Proof.
  intros Hd F Dj. unfold contours_wind. induction shapes as [|sh shapes IH]; cbn [concat].
  { split; [intros (sh & [] & _)|reflexivity]. }
  rewrite zsum_app. inversion F as [|? ? F1 F2]; subst. destruct (shape_total d sh q Hd F1) as [A B]. unfold contours_wind in A, B.
  destruct IH as [IA IB]; auto.
  { intros k k' x x' N X X'. apply (Dj (S k) (S k')); auto. }
  split.
  - intros (x & [<-|I] & Cx).
    + rewrite A, IB; auto; [lia|]. intros (y & Iy & Cy). apply In_nth_error in Iy as (k & Ek). apply (Dj 0%nat (S k) sh y); auto.
    + rewrite IA by eauto. rewrite B; [lia|]. intro Cs. apply In_nth_error in I as (k & Ek). apply (Dj 0%nat (S k) sh x); auto.
  - intro N. rewrite B, IB; auto; intro X; apply N; [destruct X as (x & I & Cx); exists x; split; simpl; auto|exists sh; split; simpl; auto].
Qed.

(** ** Slicing *)
Section Slice.
  Variables (a : adapter) (s : Q) (o : qpt) (kappa delta : Q) (Sc L : list (list qpt)).
  Hypothesis Ok : adapter_ok a s o kappa delta (concat (Sc ++ L)).
  Notation Hs := (ok_s _ _ _ _ _ _ Ok).
  Notation items := (grid_items a Sc L).
  (** no contour edge and no line within [d] *)
  Definition far_all (d : Q) (q : qpt) : Prop := far_from d Sc q /\ forall w, In w (fmoves L) -> ~ qwithin d (fst w) (snd w) q.
  Definition close_any (d : Q) (q : qpt) : Prop := close_to d Sc q \/ exists w, In w (fmoves L) /\ qwithin d (fst w) (snd w) q.
  Lemma far_not_close d q : far_all d q -> ~ close_any d q.
  Proof. intros [F G] [(c & e & Ic & Ie & W)|(w & Iw & W)]; [exact (F c e Ic Ie W)|exact (G w Iw W)]. Qed.
  Lemma close_any_mono d e q : (d <= e)%Q -> close_any d q -> close_any e q.
  Proof. intros X [(c & x & Ic & Ie & W)|(w & Iw & W)]; [left; exists c, x; split; auto; split; auto|right; exists w; split; auto]; eapply qwithin_mono; eauto. Qed.

  Variables (n : nat) (solver : Solver) (fr : FillRule) (clockwise : bool) (shapes : list (list (list pt))).
  Notation D := (reachable solver n).
  Hypothesis Near : forall c e q, In c (concat shapes) -> In e (edges c) -> on_seg (XS (fst e) (snd e)) q -> near_contour D items q \/ near_line D items q.
  Hypothesis Bd : forall c p, In c (concat shapes) -> In p c -> bounded_pt p.

  Lemma sl_edge c e q eps : In c (concat shapes) -> In e (edges c) -> qwithin eps (place s o (fst e)) (place s o (snd e)) q -> close_any (s * kappa + s * D + eps) q.
  Proof.
    intros Ic Ie (t & T & X & Y). set (q' := at_t t (place s o (fst e)) (place s o (snd e))).
    assert (Cq : close eps q' q) by (apply close_sym; split; auto).
    destruct (Near c e (unplace s o q') Ic Ie (at_place a s o kappa delta Sc L Ok t _ _ T)) as [H|H].
    - apply (near_contour_float a s o kappa delta Sc L Ok) in H as (c1 & e1 & I1 & I2 & W). left. exists c1, e1. split; auto. split; auto. eapply qwithin_close; eauto.
    - apply (near_line_float a s o kappa delta Sc L Ok) in H as (w & Iw & W). right. exists w. split; auto. eapply qwithin_close; eauto.
  Qed.
  Lemma sl_contour c q : far_all (s * kappa + s * D + delta) q -> In c (concat shapes) -> qcontour_wind (map (int_to_float a) c) q = contour_wind c (unplace s o q).
  Proof.
    intros Fq Ic. rewrite (contour_move delta q (int_to_float a) (place s o) c); [apply contour_place; apply Hs|apply (ok_d _ _ _ _ _ _ Ok)| |].
    - intros p Ip. apply (bounded_out a s o kappa delta Sc L Ok). eapply Bd; eauto.
    - intros e Ie W. rewrite ring_map, ring_edges in Ie. apply in_map_iff in Ie as (e' & <- & Ie). cbn [fst snd] in W. apply (far_not_close _ _ Fq). eapply sl_edge; eauto.
  Qed.
  Lemma sl_edges c e q eps : In c (concat (to_float a shapes)) -> In e (ring c) -> qwithin eps (fst e) (snd e) q -> close_any (s * kappa + s * D + delta + eps) q.
  Proof.
    unfold to_float. rewrite <- concat_map. intros Ic Ie W. apply in_map_iff in Ic as (c' & <- & Ic).
    rewrite ring_map, ring_edges in Ie. apply in_map_iff in Ie as (e' & <- & Ie). cbn [fst snd] in W.
    assert (P : In (fst e') c' /\ In (snd e') c').
    { destruct c' as [|x l]; [destruct Ie|]. unfold edges in Ie. destruct e' as [u v]. split; [eapply in_combine_l; eauto|]. apply in_combine_r in Ie. apply in_app_iff in Ie as [Ie|[<-|[]]]; simpl; auto. }
    assert (C : forall p, In p c' -> close delta (int_to_float a p) (place s o p)) by (intros p Ip; apply (bounded_out a s o kappa delta Sc L Ok); eapply Bd; eauto).
    assert (W' : qwithin (delta + eps) (place s o (fst e')) (place s o (snd e')) q) by (eapply qwithin_move; [| |exact W]; apply C; tauto).
    eapply close_any_mono; [|eapply sl_edge; eauto]. lra.
  Qed.

  Hypothesis Ok1 : Forall (shape_ok (sign_of clockwise)) shapes.
  Hypothesis Dj : forall k k' sh sh' q, k <> k' -> nth_error shapes k = Some sh -> nth_error shapes k' = Some sh' -> ~ (covers sh q /\ covers sh' q).
  Hypothesis Cv : forall q, ~ near_contour D items q -> ((exists sh, In sh shapes /\ covers sh q) <-> is_inside fr items q = true).
  Lemma sl_inside q : far_all (s * kappa + s * D + delta) q -> ((exists sh, In sh shapes /\ covers sh (unplace s o q)) <-> inside fr (qcontours_wind Sc q) = true).
  Proof.
    intro F. pose proof Hs. pose proof (ok_d _ _ _ _ _ _ Ok). pose proof (grid_pos a s o kappa delta Sc L Ok kappa (ok_k _ _ _ _ _ _ Ok)). pose proof (grid_pos a s o kappa delta Sc L Ok D (reachable_pos solver n)).
    rewrite Cv.
    - unfold is_inside. rewrite (snap_winds a s o kappa delta Sc L Ok); [tauto|]. destruct F as [F _]. eapply far_mono; [|exact F]. lra.
    - intro X. apply (near_contour_float a s o kappa delta Sc L Ok) in X. apply (far_not_close _ _ F). apply (close_any_mono (s * kappa + s * D)); [lra|]. left. auto.
  Qed.
  Lemma sl_near float_clean f eta q : (f_clean f = true -> float_clean_ok float_clean a eta) -> (0 <= eta)%Q -> far_all (s * kappa + s * D + delta + eta) q ->
    qcontours_wind (concat (float_result float_clean a f shapes)) q = if inside fr (qcontours_wind Sc q) then sign_of clockwise else 0.
  Proof.
    intros Fc Eta F. assert (F1 : far_all (s * kappa + s * D + delta) q).
    { destruct F as [F G]. split; [eapply far_mono; [|exact F]; lra|]. intros w Iw W. apply (G w Iw). eapply qwithin_mono; [|exact W]. lra. }
    assert (M : qcontours_wind (concat (to_float a shapes)) q = if inside fr (qcontours_wind Sc q) then sign_of clockwise else 0).
    { unfold to_float, qcontours_wind. rewrite <- concat_map, zsum_map. rewrite (zsum_ext_in _ (fun c => contour_wind c (unplace s o q))) by (intros c Ic; apply sl_contour; auto).
      assert (Hd : sign_of clockwise = 1 \/ sign_of clockwise = -1) by (destruct clockwise; auto).
      destruct (shapes_total (sign_of clockwise) shapes (unplace s o q) Hd Ok1) as [A B]; [intros; eapply Dj; eauto|]. pose proof (sl_inside q F1) as I. unfold contours_wind in A, B. unfold qcontours_wind in I.
      destruct (inside fr (zsum (fun c => qcontour_wind c q) Sc)); [apply A, I; auto|]. apply B. intro X. apply I in X. discriminate. }
    unfold float_result. destruct (f_clean f); auto. rewrite Fc; auto. intros c e Ic Ie W. apply (far_not_close _ _ F). eapply sl_edges; eauto.
  Qed.
End Slice.
