(** * Contours made of the edges of one planar arrangement: they cross only in grid points. *)
From Verif Require Import Base Spec QLib ModelSegm SegmProofs MergeProofs PlanarGeo PlanarSum ModelFill ModelFilter FillProofs FillCorrect
  ModelCross CrossProofs CrossPoint MarksProofs CoreResults Properties01 ModelSplit SplitProofs SplitPlanar SplitPass BinsProofs SplitApply SplitLoop
  ModelFrag ModelOverlay OverlayProofs FragProofs GridCover Properties02
  ModelGraph GraphProofs ModelExtract ExtractProofs ContourResults Rotation NextLink Properties03
  MoveLemma SectorLemma Sides WalkSides Orient Properties04 ModelBind BindProofs BindSweep Nest Properties05 SplitNear InputCover Properties15 ModelFloat OverlayNear.
From Coq Require Import Lqa Qabs Permutation.
Open Scope Z_scope.

(** ** A segment covered by finitely many segments runs along one of them in each of its points *)
Open Scope Q_scope.
Definition qdot (a b : pt) (q : qpt) : Q := (qx b - qx a) * (fst q - qx a) + (qy b - qy a) * (snd q - qy a).
Definition qlen2 (a b : pt) : Q := (qx b - qx a) * (qx b - qx a) + (qy b - qy a) * (qy b - qy a).
Lemma wf_len2 l : wf_xseg l -> 0 < qlen2 (sa l) (sb l).
Proof.
  intros W. unfold wf_xseg, pt_lt in W. unfold qlen2, qx, qy. unfold Qminus. rewrite <- !inject_Z_opp, <- !inject_Z_plus, <- !inject_Z_mult, <- inject_Z_plus.
  change 0 with (inject_Z 0). rewrite <- Zlt_Qlt.
  set (u := (px (sb l) + - px (sa l))%Z). set (v := (py (sb l) + - py (sa l))%Z). assert (U : (u <> 0 \/ v <> 0)%Z) by (subst u v; lia). clearbody u v. destruct U; nia.
Qed.
Lemma on_seg_dot l q : wf_xseg l -> (on_seg l q <-> qcross (sa l) (sb l) q == 0 /\ 0 <= qdot (sa l) (sb l) q <= qlen2 (sa l) (sb l)).
Proof.
  intro W. pose proof (wf_len2 l W) as D. split.
  - intros (t & T & X & Y). unfold qcross, qdot, qlen2 in *. rewrite X, Y. split; [ring|].
    set (dx := qx (sb l) - qx (sa l)) in *. set (dy := qy (sb l) - qy (sa l)) in *.
    setoid_replace (dx * (qx (sa l) + t * dx - qx (sa l)) + dy * (qy (sa l) + t * dy - qy (sa l))) with (t * (dx * dx + dy * dy)) by ring.
    set (k := dx * dx + dy * dy) in *. clearbody k. split; nra.
  - intros [C [L R]]. exists (qdot (sa l) (sb l) q / qlen2 (sa l) (sb l)). split; [split; [apply Qle_shift_div_l; lra|apply Qle_shift_div_r; lra]|].
    unfold qcross, qdot, qlen2 in *. set (dx := qx (sb l) - qx (sa l)) in *. set (dy := qy (sb l) - qy (sa l)) in *. clearbody dx dy.
    set (u := fst q - qx (sa l)) in *. set (v := snd q - qy (sa l)) in *.
    assert (U : fst q == qx (sa l) + u) by (unfold u; ring). assert (V : snd q == qy (sa l) + v) by (unfold v; ring).
    assert (NZ : ~ dx * dx + dy * dy == 0) by lra. clearbody u v.
    split; [rewrite U; apply Qplus_inj_l|rewrite V; apply Qplus_inj_l].
    + setoid_replace ((dx * u + dy * v) / (dx * dx + dy * dy) * dx) with ((dx * (dx * u) + dy * (dx * v)) / (dx * dx + dy * dy)) by (field; auto).
      setoid_replace (dx * v) with (dy * u) by lra. field; auto.
    + setoid_replace ((dx * u + dy * v) / (dx * dx + dy * dy) * dy) with ((dx * (dy * u) + dy * (dy * v)) / (dx * dx + dy * dy)) by (field; auto).
      setoid_replace (dy * u) with (dx * v) by lra. field; auto.
Qed.
(** the point at parameter [t] of a segment *)
Definition at_par (s : xseg) (t : Q) : qpt := (qx (sa s) + t * (qx (sb s) - qx (sa s)), qy (sa s) + t * (qy (sb s) - qy (sa s))).
Definition step (p v : qpt) (d : Q) : qpt := (fst p + d * fst v, snd p + d * snd v).
Lemma qcross_step a b p v d : qcross a b (step p v d) == qcross a b p + ((qx b - qx a) * snd v - (qy b - qy a) * fst v) * d.
Proof. unfold qcross, step. cbn [fst snd]. ring. Qed.
Lemma qdot_step a b p v d : qdot a b (step p v d) == qdot a b p + ((qx b - qx a) * fst v + (qy b - qy a) * snd v) * d.
Proof. unfold qdot, step. cbn [fst snd]. ring. Qed.
(** a segment that does not contain a point does not contain the next points in any direction *)
Lemma stays_off l p v : wf_xseg l -> on_seg l p \/ near (fun d => ~ on_seg l (step p v d)).
Proof.
  intro W. set (a := sa l). set (b := sb l). set (k := (qx b - qx a) * snd v - (qy b - qy a) * fst v). set (m := (qx b - qx a) * fst v + (qy b - qy a) * snd v).
  destruct (Qeq_dec (qcross a b p) 0) as [C|C].
  - destruct (Qlt_le_dec (qdot a b p) 0) as [L|L].
    { right. eapply near_mono; [|apply (near_lin _ _ m L)]. intros d _ H X. apply on_seg_dot in X as [_ [X _]]; auto.
      cbv beta in H. fold a b in X. rewrite qdot_step in X. fold m in X. lra. }
    destruct (Qlt_le_dec (qlen2 a b) (qdot a b p)) as [R|R].
    { right. assert (R' : - qdot a b p < - qlen2 a b) by lra.
      eapply near_mono; [|apply (near_lin _ _ (- m) R')]. intros d _ H X. apply on_seg_dot in X as [_ [_ X]]; auto.
      cbv beta in H. fold a b in X. rewrite qdot_step in X. fold m in X. lra. }
    left. apply on_seg_dot; auto.
  - right. destruct (Qlt_le_dec (qcross a b p) 0) as [L|L].
    + eapply near_mono; [|apply (near_lin _ _ k L)]. intros d _ H X. apply on_seg_dot in X as [X _]; auto.
      cbv beta in H. fold a b in X. rewrite qcross_step in X. fold k in X. lra.
    + assert (L' : - qcross a b p < 0) by lra.
      eapply near_mono; [|apply (near_lin _ _ (- k) L')]. intros d _ H X. apply on_seg_dot in X as [X _]; auto.
      cbv beta in H. fold a b in X. rewrite qcross_step in X. fold k in X. lra.
Qed.
Definition dir_of (s : xseg) : qpt := (qx (sb s) - qx (sa s), qy (sb s) - qy (sa s)).
Lemma step_par s t d : fst (at_par s (t + d)) == fst (step (at_par s t) (dir_of s) d) /\ snd (at_par s (t + d)) == snd (step (at_par s t) (dir_of s) d).
Proof. unfold at_par, step, dir_of. cbn [fst snd]. split; ring. Qed.
Lemma stays_off_par l s t : wf_xseg l -> on_seg l (at_par s t) \/ near (fun d => ~ on_seg l (at_par s (t + d))).
Proof.
  intro W. destruct (stays_off l (at_par s t) (dir_of s) W) as [H|H]; auto. right. eapply near_mono; [|exact H]. intros d _ Hd X. apply Hd.
  destruct (step_par s t d). eapply on_seg_comp; eauto.
Qed.
Definition parallel (s t : xseg) : Prop := ((px (sb s) - px (sa s)) * (py (sb t) - py (sa t)) = (py (sb s) - py (sa s)) * (px (sb t) - px (sa t)))%Z.
Lemma two_points_parallel s l t d : 0 < d -> on_seg l (at_par s t) -> on_seg l (at_par s (t + d)) -> parallel s l.
Proof.
  intros D (u & _ & X & Y) (v & _ & X' & Y'). unfold at_par in *. cbn [fst snd] in *.
  set (dx := qx (sb s) - qx (sa s)) in *. set (dy := qy (sb s) - qy (sa s)) in *. set (ex := qx (sb l) - qx (sa l)) in *. set (ey := qy (sb l) - qy (sa l)) in *.
  assert (E1 : d * dx == (v - u) * ex) by lra. assert (E2 : d * dy == (v - u) * ey) by lra.
  assert (E : d * (dx * ey - dy * ex) == 0).
  { setoid_replace (d * (dx * ey - dy * ex)) with (d * dx * ey - d * dy * ex) by ring. rewrite E1, E2. ring. }
  assert (Z : dx * ey == dy * ex) by nra. unfold parallel. subst dx dy ex ey. unfold qx, qy in Z.
  unfold Qminus in Z. rewrite <- !inject_Z_opp, <- !inject_Z_plus, <- !inject_Z_mult in Z. unfold Qeq in Z. cbn [inject_Z Qnum Qden] in Z. lia.
Qed.
Lemma covered_along (ls : list xseg) s q : (forall l, In l ls -> wf_xseg l) -> inside_seg s q ->
  (forall p, on_seg s p -> exists l, In l ls /\ on_seg l p) -> exists l, In l ls /\ on_seg l q /\ parallel s l.
Proof.
  intros W [Oq Nq] C. destruct Oq as (t & T & X & Y).
  assert (T1 : t < 1). { destruct (Qlt_le_dec t 1) as [L|L]; auto. exfalso. apply Nq. right. assert (E : t == 1) by lra. rewrite E in X, Y. split; [rewrite X|rewrite Y]; ring. }
  assert (Nr : near (fun d => forall l, In l ls -> on_seg l (at_par s t) \/ ~ on_seg l (at_par s (t + d)))).
  { apply near_forall. intros l Il. destruct (stays_off_par l s t (W l Il)) as [H|H]; [apply near_all; auto|]. eapply near_mono; [|exact H]. auto. }
  destruct (near_and _ _ (near_lt _ _ T1) Nr) as (e & He & F). destruct (F (e / 2)) as [F1 F2].
  { assert (e / 2 == e * (1#2)) by field. lra. }
  assert (D : 0 < e / 2) by (assert (e / 2 == e * (1#2)) by field; lra).
  destruct (C (at_par s (t + e / 2))) as (l & Il & Ol).
  { exists (t + e / 2). split; [lra|]. split; reflexivity. }
  destruct (F2 l Il) as [H|H]; [|contradiction]. exists l. split; auto. split.
  - eapply on_seg_comp; [| |exact H]; cbn [at_par fst snd]; symmetry; auto.
  - eapply two_points_parallel; eauto.
Qed.
Open Scope Z_scope.

(** ** Edges along the segments of a planar arrangement *)
Definition drawn_on (xs : list xseg) (cs : list (list pt)) : Prop :=
  forall c e q, In c cs -> In e (edges c) -> on_seg (XS (fst e) (snd e)) q -> exists l, In l xs /\ on_seg l q.
Lemma merged_on xs (adds : input) s q : Forall (fun a => open_contour (fst a)) adds -> drawn_on xs (map fst adds) ->
  In s (sort_merge (input_segments adds)) -> on_seg (sx s) q -> exists l, In l xs /\ on_seg l q.
Proof.
  intros O D. assert (F : Forall (fun s : segment cntB => on_seg (sx s) q -> exists l, In l xs /\ on_seg l q) (sort_merge (input_segments adds))).
  { apply (sort_merge_elems (fun x => on_seg x q -> exists l, In l xs /\ on_seg l q)). apply Forall_forall. intros x Is W.
    unfold input_segments in Is. apply in_flat_map in Is as ([c t] & Ic & Is). rewrite Forall_forall in O. cbn [fst snd] in Is.
    pose proof (append_cov (C := cntB) c t (O _ Ic)) as Fc. rewrite Forall_forall in Fc. destruct (Fc x Is q W) as (e & Ie & Oe).
    apply (D c e q); auto. apply in_map_iff. exists (c, t). auto. }
  rewrite Forall_forall in F. apply F.
Qed.
Theorem drawn_exact xs (adds : input) : planar xs -> (forall l, In l xs -> wf_xseg l) -> Forall (fun a => open_contour (fst a)) adds ->
  drawn_on xs (map fst adds) -> exact_crossings (map sx (sort_merge (input_segments adds))).
Proof.
  intros P W O D s t q Is It Np Hs Ht. apply in_map_iff in Is as (s' & <- & Is). apply in_map_iff in It as (t' & <- & It).
  destruct (covered_along xs (sx s') q W Hs) as (l & Il & Ol & Pl). { intros p Op. apply (merged_on xs adds s' p); auto. }
  destruct (covered_along xs (sx t') q W Ht) as (m & Im & Om & Pm). { intros p Op. apply (merged_on xs adds t' p); auto. }
  assert (NE : l <> m).
  { intros <-. apply Np. pose proof (W l Il) as Wl. unfold wf_xseg, pt_lt in Wl. unfold parallel in *.
    set (a := px (sb (sx s')) - px (sa (sx s'))) in *. set (b := py (sb (sx s')) - py (sa (sx s'))) in *.
    set (c := px (sb (sx t')) - px (sa (sx t'))) in *. set (d := py (sb (sx t')) - py (sa (sx t'))) in *.
    set (u := px (sb l) - px (sa l)) in *. set (v := py (sb l) - py (sa l)) in *.
    destruct (Z.eq_dec u 0) as [U|U].
    - assert (V : v <> 0) by (subst u v; lia). rewrite U in *. assert (a = 0) by nia. assert (c = 0) by nia. subst a c. lia.
    - assert (H : u * (a * d) - u * (b * c) = a * (d * u - c * v) + c * (a * v - b * u)) by ring. rewrite Pl, Pm, !Z.sub_diag, !Z.mul_0_r in H. apply (Z.mul_reg_l _ _ u); auto; lia. }
  destruct (P l m Il Im NE q Ol Om) as [[E|E] _]; eauto.
Qed.

Open Scope Q_scope.
(** ** Boundaries: where the winding number of some contours changes across a segment, an edge of them runs *)
Lemma off_edges (xs : list xseg) p v : (forall l, In l xs -> wf_xseg l) -> (forall l, In l xs -> ~ on_seg l p) -> near (fun d => forall l, In l xs -> ~ on_seg l (step p v d)).
Proof. intros W N. apply near_forall. intros l Il. destruct (stays_off l p v (W l Il)) as [H|H]; auto. destruct (N l Il H). Qed.
Lemma wind_around c q v : balanced c -> (forall e, In e c -> wf_xseg (fst e)) -> (forall e, In e c -> ~ on_seg (fst e) q) ->
  near (fun d => wind c (step q v d) = wind c q).
Proof.
  intros B W N. assert (H : near (fun d => forall l, In l (map fst c) -> ~ on_seg l (step q v d))).
  { apply off_edges; intros l I; apply in_map_iff in I as (e & <- & I); auto. }
  destruct H as (k & K & F). exists k. split; auto. intros d D. symmetry. apply move; auto. intros e Ie _ t T O.
  assert (E : fst (lerp q (step q v d) t) == fst (step q v (t * d)) /\ snd (lerp q (step q v d) t) == snd (step q v (t * d))) by (unfold lerp, step; cbn [fst snd]; split; ring).
  destruct E as [E1 E2]. apply (on_seg_comp _ _ _ E1 E2) in O. destruct (Qlt_le_dec 0 t) as [P|P].
  - apply (F (t * d)) with (l := fst e); auto; [nra|]. apply in_map; auto.
  - apply (N e Ie). eapply on_seg_comp; [| |exact O]; unfold step; cbn [fst snd]; assert (Z : t == 0) by lra; rewrite Z; ring.
Qed.
Lemma top_step l q d : fst (top_side l q d) == fst (step q (if (px (sa l) =? px (sb l))%Z then (-1, 0) else (0, 1)) d) /\ snd (top_side l q d) == snd (step q (if (px (sa l) =? px (sb l))%Z then (-1, 0) else (0, 1)) d).
Proof. unfold top_side, step. destruct (px (sa l) =? px (sb l))%Z; cbn [fst snd]; split; ring. Qed.
Lemma bottom_step l q d : fst (bottom_side l q d) == fst (step q (if (px (sa l) =? px (sb l))%Z then (1, 0) else (0, -1)) d) /\ snd (bottom_side l q d) == snd (step q (if (px (sa l) =? px (sb l))%Z then (1, 0) else (0, -1)) d).
Proof. unfold bottom_side, step. destruct (px (sa l) =? px (sb l))%Z; cbn [fst snd]; split; ring. Qed.
Lemma on_seg_dec l q : wf_xseg l -> {on_seg l q} + {~ on_seg l q}.
Proof.
  intro W. destruct (Qeq_dec (qcross (sa l) (sb l) q) 0) as [C|C]; [|right; intro H; apply on_seg_dot in H; tauto].
  destruct (Qlt_le_dec (qdot (sa l) (sb l) q) 0) as [L|L]; [right; intro H; apply on_seg_dot in H; auto; destruct H as [_ [H _]]; lra|].
  destruct (Qlt_le_dec (qlen2 (sa l) (sb l)) (qdot (sa l) (sb l) q)) as [R|R]; [right; intro H; apply on_seg_dot in H; auto; destruct H as [_ [_ H]]; lra|].
  left. apply on_seg_dot; auto.
Qed.
Lemma on_some_dec (xs : list xseg) q : (forall l, In l xs -> wf_xseg l) -> (exists l, In l xs /\ on_seg l q) \/ forall l, In l xs -> ~ on_seg l q.
Proof.
  induction xs as [|x xs IH]; intro W; [right; intros ? []|]. destruct (on_seg_dec x q (W x (or_introl eq_refl))) as [H|H]; [left; exists x; split; auto; left; auto|].
  destruct IH as [(l & Il & Ol)|N]; [intros l Il; apply W; right; auto|left; exists l; split; auto; right; auto|]. right. intros l [<-|Il]; auto.
Qed.
Open Scope Z_scope.
(** the point lies on an edge of one of the contours *)
Definition on_contours (cs : list (list pt)) (q : qpt) : Prop := exists c e, In c cs /\ In e (edges c) /\ on_seg (XS (fst e) (snd e)) q.
Definition given (t : ShapeType) (cs : list (list pt)) : input := map (fun c => (c, t)) cs.
Lemma given_fst t cs : map fst (given t cs) = cs.
Proof. unfold given. rewrite map_map. apply map_id. Qed.
Lemma given_open t cs : Forall open_contour cs -> Forall (fun a : list pt * ShapeType => open_contour (fst a)) (given t cs).
Proof. intro F. unfold given. apply Forall_map. exact F. Qed.
Lemma operand_given t cs : operand t (given t cs) = cs.
Proof. unfold given, operand. induction cs as [|c cs IH]; auto. destruct t; cbn [map filter snd fst]; f_equal; exact IH. Qed.
Lemma on_contours_app cs ds q : on_contours (cs ++ ds) q <-> on_contours cs q \/ on_contours ds q.
Proof.
  unfold on_contours. split.
  - intros (c & e & I & H). apply in_app_or in I as [I|I]; [left|right]; eauto.
  - intros [(c & e & I & H)|(c & e & I & H)]; exists c, e; (split; [apply in_or_app; auto|auto]).
Qed.
Section Change.
  Variable adds : input.
  Hypothesis B : bounded_input adds.
  Hypothesis O : Forall (fun a => open_contour (fst a)) adds.
  Notation merged := (sort_merge (input_segments adds)).
  Lemma subj_is q : wind (subj_chain merged) q = contours_wind (operand Subject adds) q.
  Proof. unfold subj_chain. rewrite sort_merge_wind by (reflexivity || (intros [? ?]; simpl; lia)). apply input_wind_subj; auto. Qed.
  Lemma clip_is q : wind (clip_chain merged) q = contours_wind (operand Clip adds) q.
  Proof. unfold clip_chain. rewrite sort_merge_wind by (reflexivity || (intros [? ?]; simpl; lia)). apply input_wind_clip; auto. Qed.
  Lemma merged_wf x : In x (map sx merged) -> wf_xseg x.
  Proof. intro I. apply in_map_iff in I as (s & <- & Is). pose proof (inv_wf _ (input_inv _ B)) as W. rewrite Forall_forall in W. apply W; auto. Qed.
  Lemma merged_drawn x q : In x (map sx merged) -> on_seg x q -> on_contours (map fst adds) q.
  Proof.
    intros I Oq. apply in_map_iff in I as (s & <- & Is).
    assert (F : Forall (fun s : segment cntB => on_seg (sx s) q -> on_contours (map fst adds) q) merged).
    { apply (sort_merge_elems (fun x => on_seg x q -> on_contours (map fst adds) q)). apply Forall_forall. intros x Ix W.
      unfold input_segments in Ix. apply in_flat_map in Ix as ([c t] & Ic & Ix). cbn [fst snd] in Ix.
      rewrite Forall_forall in O. pose proof (append_cov (C := cntB) c t (O _ Ic)) as Fc. rewrite Forall_forall in Fc. destruct (Fc x Ix q W) as (e & Ie & Oe). exists c, e.
      split; auto. apply in_map_iff. exists (c, t). auto. }
    rewrite Forall_forall in F. apply (F s); auto.
  Qed.
  Variable l : xseg.
  Hypothesis W : wf_xseg l.
  Hypothesis Ch : forall p, inside_seg l p -> near (fun d =>
    ~ (contours_wind (operand Subject adds) (top_side l p d) = contours_wind (operand Subject adds) (bottom_side l p d) /\
       contours_wind (operand Clip adds) (top_side l p d) = contours_wind (operand Clip adds) (bottom_side l p d))).
  Lemma change_inside p : inside_seg l p -> exists x, In x (map sx merged) /\ on_seg x p.
  Proof.
    intro Ip. destruct (merged_balanced adds) as [Bs Bc]. destruct (on_some_dec (map sx merged) p merged_wf) as [H|N]; auto.
    exfalso. set (v1 := if px (sa l) =? px (sb l) then (-1, 0)%Q else (0, 1)%Q). set (v2 := if px (sa l) =? px (sb l) then (1, 0)%Q else (0, -1)%Q).
    assert (Ws : forall e, In e (subj_chain merged) -> In (fst e) (map sx merged)) by (intros e Ie; unfold subj_chain in Ie; apply in_map_iff in Ie as (s & <- & Is); cbn [fst]; exact (in_map sx _ _ Is)).
    assert (Wc : forall e, In e (clip_chain merged) -> In (fst e) (map sx merged)) by (intros e Ie; unfold clip_chain in Ie; apply in_map_iff in Ie as (s & <- & Is); cbn [fst]; exact (in_map sx _ _ Is)).
    assert (Ns : forall v, near (fun d => wind (subj_chain merged) (step p v d) = wind (subj_chain merged) p)) by (intro v; apply wind_around; [auto|intros e Ie; apply merged_wf; auto|intros e Ie; apply N; auto]).
    assert (Nc : forall v, near (fun d => wind (clip_chain merged) (step p v d) = wind (clip_chain merged) p)) by (intro v; apply wind_around; [auto|intros e Ie; apply merged_wf; auto|intros e Ie; apply N; auto]).
    destruct (near_and _ _ (Ch p Ip) (near_and _ _ (near_and _ _ (Ns v1) (Ns v2)) (near_and _ _ (Nc v1) (Nc v2)))) as (k & K & F).
    destruct (F (k * (1#2))%Q ltac:(lra)) as (F1 & [F2 F3] & F4 & F5). apply F1. rewrite <- !subj_is, <- !clip_is.
    destruct (top_step l p (k * (1#2))) as [T1 T2]. destruct (bottom_step l p (k * (1#2))) as [B1 B2]. fold v1 in T1, T2. fold v2 in B1, B2.
    rewrite (wind_eq (subj_chain merged) _ _ T1 T2), (wind_eq (subj_chain merged) _ _ B1 B2), (wind_eq (clip_chain merged) _ _ T1 T2), (wind_eq (clip_chain merged) _ _ B1 B2).
    split; etransitivity; [exact F2|symmetry; exact F3|exact F4|symmetry; exact F5].
  Qed.
  Lemma change_on q : on_seg l q -> on_contours (map fst adds) q.
  Proof.
    intro Oq. destruct (on_some_dec (map sx merged) q merged_wf) as [(x & Ix & Ox)|N]; [eapply merged_drawn; eauto|].
    exfalso. assert (K : forall p, inside_seg l p -> (forall x, In x (map sx merged) -> ~ on_seg x p) -> False).
    { intros p Ip Np. destruct (change_inside p Ip) as (x & Ix & Ox). apply (Np x); auto. }
    destruct Oq as (t & T & X & Y).
    set (v := if Qlt_le_dec t (1#2) then dir_of l else ((- fst (dir_of l))%Q, (- snd (dir_of l))%Q)).
    destruct (near_and _ _ (near_lt 0 (1#2) ltac:(lra)) (off_edges (map sx merged) q v merged_wf N)) as (k & K0 & F).
    destruct (F (k * (1#2))%Q ltac:(lra)) as [F1 F2]. set (d := (k * (1#2))%Q) in *. assert (D : (0 < d)%Q) by (unfold d; lra).
    apply (K (step q v d)); auto. set (u := if Qlt_le_dec t (1#2) then (t + d)%Q else (t - d)%Q).
    assert (U : (0 < u < 1)%Q) by (unfold u; destruct (Qlt_le_dec t (1#2)); lra).
    assert (E : (fst (step q v d) == qx (sa l) + u * (qx (sb l) - qx (sa l)) /\ snd (step q v d) == qy (sa l) + u * (qy (sb l) - qy (sa l)))%Q).
    { unfold step, v, u, dir_of. destruct (Qlt_le_dec t (1#2)); cbn [fst snd]; rewrite X, Y; split; ring. }
    destruct E as [E1 E2]. split; [exists u; split; [lra|auto]|]. pose proof (wf_len2 l W) as L2. unfold qlen2 in L2.
    intros [[P1 P2]|[P1 P2]]; rewrite E1 in P1; rewrite E2 in P2;
      set (dx := (qx (sb l) - qx (sa l))%Q) in *; set (dy := (qy (sb l) - qy (sa l))%Q) in *.
    + assert (Zx : (u * dx == 0)%Q) by lra. assert (Zy : (u * dy == 0)%Q) by lra. assert ((dx == 0)%Q) by nra. assert ((dy == 0)%Q) by nra. nra.
    + assert (Zx : ((1 - u) * dx == 0)%Q) by (unfold dx in *; lra). assert (Zy : ((1 - u) * dy == 0)%Q) by (unfold dy in *; lra). assert ((dx == 0)%Q) by nra. assert ((dy == 0)%Q) by nra. nra.
  Qed.
End Change.

(** ** Contours of an answer *)
(** contract of the two contour clean-up functions of [i_shape]: the first point is not repeated at the end *)
Definition clean_open (clean : bool -> list pt -> list pt * bool) : Prop := forall b c, open_contour c -> open_contour (fst (clean b c)).
Lemma edges_last (c : list pt) : (2 <= length c)%nat -> In (last c (Pt 0 0), hd (Pt 0 0) c) (edges c).
Proof.
  intro L. destruct c as [|a c]; [cbn in L; lia|]. unfold edges. cbn [hd].
  assert (G : forall (b : pt) l z, In (last (b :: l) (Pt 0 0), z) (combine (b :: l) (l ++ [z]))).
  { intros b l z. revert b. induction l as [|x l IH]; intro b; [left; auto|]. right. apply IH. }
  apply G.
Qed.
Lemma distinct_open c : (forall e, In e (edges c) -> fst e <> snd e) -> open_contour c.
Proof. intro H. destruct (Nat.lt_ge_cases (length c) 2) as [L|L]; [right; auto|left]. apply (H (last c (Pt 0 0), hd (Pt 0 0) c)). apply edges_last; auto. Qed.
Lemma shapes_pieces dbg g clean r clockwise simplify min_area vis ps shapes c : extract_pieces g clean r clockwise simplify min_area vis = Some ps ->
  extract_shapes dbg g clean r clockwise simplify min_area vis = Some shapes -> In c (concat shapes) -> exists p, In p ps /\ c = p_contour p.
Proof.
  intros P H I. destruct (outer_contours ps) as [|o os] eqn:E.
  - unfold extract_shapes in H. rewrite P, E in H. destruct (anchors_of dbg clockwise 0 ps) as [[an srt]|]; [|discriminate]. cbn in H. injection H as <-. destruct I.
  - assert (G : grouped (outer_contours ps) (hole_contours ps) shapes) by (eapply C22_holes_once; eauto; rewrite E; discriminate).
    apply piece_in. eapply grouped_in; eauto.
Qed.
Section Drawn.
  Variable segs : list (segment cntB).
  Hypothesis A : arrangement segs.
  Variable clean : bool -> list pt -> list pt * bool.
  Hypothesis Ce : clean_edges clean.
  Hypothesis Co : clean_open clean.
  Lemma drawn_gen inc (sel : link -> bool) fr r ends g dbg clockwise simplify min_area shapes : ends_ok (kept inc fr segs) ends -> graph_new (kept inc fr segs) ends = Some g ->
    (forall v, Nat.Even (degree (filter sel (kept inc fr segs)) v)) ->
    extract_shapes dbg g clean r clockwise simplify min_area (flags sel (kept inc fr segs)) = Some shapes ->
    drawn_on (map l_seg (filter sel (kept inc fr segs))) (concat shapes) /\ Forall open_contour (concat shapes).
  Proof.
    intros E Hg Ev Hs. destruct (blinks_graph segs A fr _ ends E) as (g' & pts & H & G). rewrite Hg in H. injection H as <-.
    destruct (pieces_spec (kept inc fr segs) g pts sel clean r clockwise simplify min_area G (blinks_wf segs A fr _)) as (ps & P1 & P2 & _ & P4 & _); auto.
    rewrite Forall_forall in P2. split.
    - intros c e q Ic Ie Oq. destruct (shapes_pieces _ _ _ _ _ _ _ _ _ _ c P1 Hs Ic) as (p & Ip & ->). destruct (P2 p Ip) as (W & Ec & _).
      rewrite Ec in Ie. destruct (Ce _ _ _ _ Ie Oq) as (e' & Ie' & Oq'). destruct (forall2_l _ _ _ _ W Ie') as (i & Ii & l & Hl & El).
      destruct (P4 i) as (l' & Hl' & Sl). { apply in_concat. exists (p_used p). split; auto. apply in_map; auto. }
      assert (l' = l) by (rewrite Hl in Hl'; congruence). subst l'.
      exists (l_seg l). split; [apply in_map, filter_In; split; auto; eapply nth_error_In; eauto|].
      destruct El as [-> | ->]; [exact Oq'|]. apply on_seg_swap. exact Oq'.
    - apply Forall_forall. intros c Ic. destruct (shapes_pieces _ _ _ _ _ _ _ _ _ _ c P1 Hs Ic) as (p & Ip & ->). destruct (P2 p Ip) as (W & Ec & _).
      rewrite Ec. apply Co. apply distinct_open. apply (walk_distinct (kept inc fr segs) (p_raw p) (p_used p)); [apply (blinks_wf segs A fr)|exact W].
  Qed.
  Lemma drawn_direct fr r ends g dbg clockwise simplify min_area shapes : ends_ok (result_links fr r segs) ends -> graph_new (result_links fr r segs) ends = Some g ->
    extract_shapes dbg g clean r clockwise simplify min_area (repeat false (length (result_links fr r segs))) = Some shapes ->
    drawn_on (map l_seg (result_links fr r segs)) (concat shapes) /\ Forall open_contour (concat shapes).
  Proof.
    intros E Hg Hs. rewrite <- flags_all in Hs. assert (Ev : forall v, Nat.Even (degree (filter (fun _ => true) (result_links fr r segs)) v)) by (intro v; rewrite filter_true; apply result_even; auto).
    pose proof (drawn_gen (is_included r) (fun _ => true) fr r ends g dbg clockwise simplify min_area shapes E Hg Ev Hs) as H. rewrite filter_true in H. exact H.
  Qed.
  Lemma drawn_graph fr r ends g dbg clockwise simplify min_area shapes : ends_ok (kept is_included_filler fr segs) ends -> graph_new (kept is_included_filler fr segs) ends = Some g ->
    extract_shapes dbg g clean r clockwise simplify min_area (filter_by_rule r (kept is_included_filler fr segs)) = Some shapes ->
    drawn_on (map l_seg (result_links fr r segs)) (concat shapes) /\ Forall open_contour (concat shapes).
  Proof.
    intros E Hg Hs. assert (Ev : forall v, Nat.Even (degree (filter (fun l => is_included r (l_fill l)) (kept is_included_filler fr segs)) v)) by (intro v; rewrite graph_reuse by auto; apply result_even; auto).
    pose proof (drawn_gen is_included_filler (fun l => is_included r (l_fill l)) fr r ends g dbg clockwise simplify min_area shapes E Hg Ev Hs) as H. rewrite graph_reuse in H by auto. exact H.
  Qed.
  Lemma links_segs fr r cs : drawn_on (map l_seg (result_links fr r segs)) cs -> drawn_on (map sx segs) cs.
  Proof.
    intros D c e q Ic Ie Oq. destruct (D c e q Ic Ie Oq) as (x & Ix & Ox). apply in_map_iff in Ix as (l & <- & Il).
    destruct (proj1 (C01_result_is_subset segs fr r A) l Il) as (s & Is & E). exists (sx s). split; [apply in_map; auto|]. rewrite <- E. exact Ox.
  Qed.
End Drawn.

(** ** One input, several answers *)
Section WithContracts.
  Variable layout_new : Z -> Z -> nat -> option (Z -> nat).
  Hypothesis Lay : layout_ok layout_new.
  Variable query : list (nat * xseg) -> Z * Z -> Z -> list (nat * xseg).
  Hypothesis Qry : query_ok query.
  Variable tree_new : Z * Z -> bool.
  Variable sort_ends : list link -> list (nat * pt).
  Hypothesis Sort : forall ls, ends_ok ls (sort_ends ls).
  Variable clean : bool -> list pt -> list pt * bool.
  Hypothesis Cl : clean_ok clean.
  Hypothesis Ce : clean_edges clean.
  Hypothesis Co : clean_open clean.
  Notation merged adds := (sort_merge (input_segments adds)).
  Notation overlay fuel dbg solver adds r fr clockwise simplify min_area := (overlay_custom layout_new query tree_new sort_ends clean fuel dbg adds r fr clockwise simplify min_area solver).

  (** the segments after splitting *)
  Definition split_of (fuel : nat) (solver : Solver) (adds : input) : option (list (segment cntB)) :=
    match input_segments adds with
    | [] => Some []
    | _ => match split_segments layout_new query tree_new fuel solver (input_segments adds) with Done segs => Some segs | _ => None end
    end.
  Lemma build_split inc fuel solver adds fr ls : build_boolean layout_new query tree_new inc fuel (input_segments adds) fr solver = ROk ls ->
    exists segs, split_of fuel solver adds = Some segs /\ ls = kept inc fr segs.
  Proof.
    intro H. unfold build_boolean in H. unfold split_of. destruct (input_segments adds) as [|s0 l0] eqn:E0; [injection H as <-; exists []; auto|].
    rewrite <- E0 in *. destruct (split_segments _ _ _ _ _ _) as [segs| |]; try discriminate. exists segs. split; auto. destruct segs; injection H as <-; auto.
  Qed.
  Lemma split_arr fuel solver adds segs : bounded_input adds -> no_grid solver (length (merged adds)) -> split_of fuel solver adds = Some segs ->
    arrangement segs /\ Forall (fun s => bounded (sx s)) segs.
  Proof.
    intros B N H. unfold split_of in H. destruct (input_segments adds) as [|s0 l0] eqn:E0.
    - injection H as <-. split; [|constructor]. constructor; try (intros ? []; fail); try (intro v; reflexivity); [constructor|intros ? ? []|constructor].
    - rewrite <- E0 in *. destruct (split_segments _ _ _ _ _ _) as [segs'| |] eqn:ES; try discriminate. injection H as ->.
      split; [apply (C14_planar_partial layout_new Lay query Qry tree_new _ _ _ _ B N ES)|]. apply (inv_bd _ (proj1 (split_all layout_new Lay query Qry tree_new _ _ _ _ B ES))).
  Qed.
  (** shapes that a call of [overlay], or of [extract_shapes] of the graph, returned for an input *)
  Definition answer_for (fuel : nat) (solver : Solver) (adds : input) (r : OverlayRule) (fr : FillRule) (clockwise : bool) (min_area : Z) (shapes : list (list (list pt))) : Prop :=
    exists dbg simplify,
      overlay fuel dbg solver adds r fr clockwise simplify min_area = ROk shapes \/
      exists ls g, graph_links layout_new query tree_new fuel solver fr (input_segments adds) = ROk ls /\ graph_new ls (sort_ends ls) = Some g /\
        extract_shapes dbg g clean r clockwise simplify min_area (filter_by_rule r ls) = Some shapes.
  (** the same for some rules and options *)
  Definition answer (fuel : nat) (solver : Solver) (adds : input) (shapes : list (list (list pt))) : Prop :=
    exists r fr clockwise min_area, answer_for fuel solver adds r fr clockwise min_area shapes.
  Lemma overlay_inv fuel dbg solver adds r fr clockwise simplify min_area shapes : overlay fuel dbg solver adds r fr clockwise simplify min_area = ROk shapes ->
    exists segs g, split_of fuel solver adds = Some segs /\ graph_new (result_links fr r segs) (sort_ends (result_links fr r segs)) = Some g /\
      extract_shapes dbg g clean r clockwise simplify min_area (repeat false (length (result_links fr r segs))) = Some shapes.
  Proof.
    unfold overlay_custom, overlay_links. intro H.
    destruct (build_boolean layout_new query tree_new (is_included r) fuel (input_segments adds) fr solver) as [ls| |] eqn:EL; try discriminate. cbn [fbind] in H.
    destruct (build_split _ _ _ _ _ _ EL) as (segs & Es & ->). exists segs. fold (result_links fr r segs) in *.
    destruct (graph_new _ _) as [g|]; [|discriminate]. cbn [fbind fopt] in H. exists g. split; auto. split; auto.
    destruct (extract_shapes _ _ _ _ _ _ _ _) as [sh|]; [|discriminate]. injection H as <-. auto.
  Qed.
  Lemma answer_for_drawn fuel solver adds r fr cw ma shapes : bounded_input adds -> no_grid solver (length (merged adds)) -> answer_for fuel solver adds r fr cw ma shapes ->
    exists segs, split_of fuel solver adds = Some segs /\ arrangement segs /\ Forall (fun s => bounded (sx s)) segs /\
      drawn_on (map l_seg (result_links fr r segs)) (concat shapes) /\ Forall open_contour (concat shapes) /\
      (ma = 0 -> forall q, contours_wind (concat shapes) q = if bool_op r (inside fr (wind (subj_chain segs) q)) (inside fr (wind (clip_chain segs) q)) then sign_of cw else 0).
  Proof.
    intros B N (dbg & si & [H|(ls & g & Hl & Hg & Hx)]).
    - destruct (overlay_inv _ _ _ _ _ _ _ _ _ _ H) as (segs & g & Es & Hg & Hx). exists segs. split; auto. destruct (split_arr _ _ _ _ B N Es) as [A Bd]. split; auto. split; auto.
      destruct (drawn_direct segs A clean Ce Co fr r _ g dbg cw si ma shapes (Sort _) Hg Hx) as [D O]. split; auto. split; auto.
      intros ->. apply (direct_result segs A fr r clean Cl Ce dbg cw si _ g shapes (Sort _) Hg Hx).
    - destruct (build_split _ _ _ _ _ _ Hl) as (segs & Es & ->). exists segs. split; auto. destruct (split_arr _ _ _ _ B N Es) as [A Bd]. split; auto. split; auto.
      destruct (drawn_graph segs A clean Ce Co fr r _ g dbg cw si ma shapes (Sort _) Hg Hx) as [D O]. split; auto. split; auto.
      intros ->. apply (graph_result segs A fr r clean Cl Ce dbg cw si _ g shapes (Sort _) Hg Hx).
  Qed.
  Lemma answer_drawn fuel solver adds shapes segs : bounded_input adds -> no_grid solver (length (merged adds)) -> split_of fuel solver adds = Some segs ->
    answer fuel solver adds shapes -> drawn_on (map sx segs) (concat shapes) /\ Forall open_contour (concat shapes).
  Proof.
    intros B N Es (r & fr & cw & ma & H). destruct (answer_for_drawn _ _ _ _ _ _ _ _ B N H) as (segs' & Es' & A & _ & D & O & _). rewrite Es in Es'. injection Es' as <-.
    split; auto. eapply links_segs; eauto.
  Qed.
  Lemma answer_split fuel solver adds shapes : bounded_input adds -> no_grid solver (length (merged adds)) -> answer fuel solver adds shapes -> exists segs, split_of fuel solver adds = Some segs.
  Proof. intros B N (r & fr & cw & ma & H). destruct (answer_for_drawn _ _ _ _ _ _ _ _ B N H) as (segs & Es & _). eauto. Qed.
  (** without rounding the segments after splitting wind as the contours given *)
  Lemma exact_split fuel solver adds segs : bounded_input adds -> no_grid solver (length (merged adds)) -> Forall (fun a => open_contour (fst a)) adds ->
    exact_crossings (map sx (merged adds)) -> split_of (S fuel) solver adds = Some segs ->
    (forall q, wind (subj_chain segs) q = contours_wind (operand Subject adds) q) /\ forall q, wind (clip_chain segs) q = contours_wind (operand Clip adds) q.
  Proof.
    intros B N O Ex H. unfold split_of in H. destruct (input_segments adds) as [|s0 l0] eqn:E0.
    { injection H as <-. split; intro q; [rewrite <- input_wind_subj by auto|rewrite <- input_wind_clip by auto]; rewrite E0; reflexivity. }
    rewrite <- E0 in *. destruct (merged_balanced adds) as [BS BC].
    assert (NE : merged adds <> [] \/ is_list_split solver 0 = true).
    { destruct (split_is_loop layout_new query tree_new (S fuel) solver (input_segments adds) N) as [(E1 & E2 & E)|(tree & E & X)].
      - rewrite E in H. discriminate.
      - destruct (merged adds) as [|m ms] eqn:Em; [|left; discriminate]. right. destruct (is_list_split solver 0) eqn:El; auto. exfalso.
        unfold split_segments, solver_split in H. rewrite Em in H. cbn [length] in H. rewrite El in H. unfold no_grid in N. cbn [length] in N. rewrite El in N.
        destruct N as [N|N]; [discriminate|]. rewrite N in H. cbn in H. discriminate. }
    destruct (split_exact layout_new Lay query Qry tree_new (input_segments adds) (input_inv adds B) BS BC solver fuel N Ex NE) as (out & Ho & W1 & W2).
    rewrite Ho in H. injection H as <-. split; intro q; [rewrite W1; apply subj_is|rewrite W2; apply clip_is]; auto.
  Qed.
End WithContracts.
(** an edge of a result runs along the contours given *)
Lemma link_changes segs (A : arrangement segs) fr r adds : bounded_input adds -> Forall (fun a => open_contour (fst a)) adds ->
  (forall q, wind (subj_chain segs) q = contours_wind (operand Subject adds) q) -> (forall q, wind (clip_chain segs) q = contours_wind (operand Clip adds) q) ->
  forall l q, In l (result_links fr r segs) -> on_seg (l_seg l) q -> on_contours (map fst adds) q.
Proof.
  intros B O Ws Wc l q Il Ol. destruct (proj1 (C01_result_is_subset segs fr r A) l Il) as (s & Is & E). rewrite E in Ol.
  apply (change_on adds B O (sx s)); auto; [apply (arr_wf _ A); auto|].
  intros p Ip. eapply near_mono; [|apply (C01_result_edges segs fr r s p A Is Ip)]. intros d _ [H _] [E1 E2].
  apply H; [exists l; auto|]. rewrite !Ws, !Wc, E1, E2. reflexivity.
Qed.
(** the same for any contours with the winding numbers of the result *)
Lemma link_bounds segs (A : arrangement segs) fr r cs (d : Z) : d <> 0 -> bounded_input (given Subject cs) -> Forall open_contour cs ->
  (forall q, contours_wind cs q = if bool_op r (inside fr (wind (subj_chain segs) q)) (inside fr (wind (clip_chain segs) q)) then d else 0) ->
  forall l q, In l (result_links fr r segs) -> on_seg (l_seg l) q -> on_contours cs q.
Proof.
  intros D B O W l q Il Ol. destruct (proj1 (C01_result_is_subset segs fr r A) l Il) as (s & Is & E). rewrite E in Ol.
  rewrite <- (given_fst Subject cs). apply (change_on (given Subject cs) B (given_open Subject cs O) (sx s)); auto; [apply (arr_wf _ A); auto|].
  intros p Ip. eapply near_mono; [|apply (C01_result_edges segs fr r s p A Is Ip)]. intros k _ [H _] [E1 _]. rewrite operand_given in E1.
  apply H; [exists l; auto|]. cbv beta zeta. rewrite !W in E1.
  destruct (bool_op r (inside fr (wind (subj_chain segs) (top_side (sx s) p k))) (inside fr (wind (clip_chain segs) (top_side (sx s) p k)))),
    (bool_op r (inside fr (wind (subj_chain segs) (bottom_side (sx s) p k))) (inside fr (wind (clip_chain segs) (bottom_side (sx s) p k)))); auto; congruence.
Qed.
