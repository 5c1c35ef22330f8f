(** * Shapes taken back to floating point coordinates (as in C48), over the reals: the winding numbers of the contours that [stroke] and [outline] return. *)
From Verif Require Import Base Spec QLib ModelSegm SegmProofs MergeProofs PlanarGeo PlanarSum ModelFill ModelFilter FillProofs FillCorrect
  ModelCross CrossProofs CrossPoint MarksProofs CoreResults Properties01 ModelSplit SplitProofs SplitPlanar SplitPass BinsProofs SplitApply SplitLoop
  ModelFrag ModelOverlay OverlayProofs FragProofs GridCover Properties02
  ModelGraph GraphProofs ModelExtract ExtractProofs ContourResults Rotation NextLink Properties03
  MoveLemma SectorLemma Sides WalkSides Orient Properties04 ModelBind BindProofs BindSweep Nest Properties05 Natural ModelOffset OffsetProofs ModelMesh MeshProofs MeshStrip Properties09
  SplitNear InputCover Properties15 Properties10 ModelOutline Properties13 OffsetNear Properties19 OffsetEdges Properties22.
From Coq Require Import Reals Lra Psatz Qreals.
From Verif Require Import RealMesh RealJoin RealReach Properties11 RealMiter RealWind RealMove RealCorner RealStroke RealPieces RealCount RealCover RealPath RealRound Properties20.
Open Scope R_scope.

Lemma zsum_ext_in {A} (f g : A -> Z) l : (forall x, In x l -> f x = g x) -> zsum f l = zsum g l.
Proof. intro H. induction l as [|x l IH]; auto. rewrite !zsum_cons, IH by (intros; apply H; right; auto). rewrite (H x) by (left; auto). reflexivity. Qed.
(** ** Winding numbers of contours with real coordinates *)
Definition rring {A} (c : list A) : list (A * A) := match c with [] => [] | a :: r => combine c (r ++ [a]) end.
Definition rcontour_wind (c : list rpt) (p : rpt) : Z := zsum (rwind p) (rring c).
Definition rcontours_wind (cs : list (list rpt)) (p : rpt) : Z := zsum (fun c => rcontour_wind c p) cs.

Lemma rchain_move {A} d q (f g : A -> rpt) : 0 <= d -> forall l a z, (forall p, In p (a :: l ++ [z]) -> rclose d (f p) (g p)) ->
  (forall e, In e (combine (a :: l) (l ++ [z])) -> ~ rwithin d (g (fst e)) (g (snd e)) q) ->
  zsum (fun e => rwind q (f (fst e), f (snd e))) (combine (a :: l) (l ++ [z])) =
    (zsum (fun e => rwind q (g (fst e), g (snd e))) (combine (a :: l) (l ++ [z])) + rwind q (f a, g a) - rwind q (f z, g z))%Z.
Proof.
  intro D. induction l as [|b l IH]; intros a z C W.
  - change (rwind q (f a, f z) + 0 = rwind q (g a, g z) + 0 + rwind q (f a, g a) - rwind q (f z, g z))%Z.
    rewrite (rquad d q (g a) (g z) (f a) (f z)); auto; [lia| | |].
    + apply C. left; auto. + apply C. right. left. auto. + apply (W (a, z)). left; auto.
  - change (combine (a :: b :: l) ((b :: l) ++ [z])) with ((a, b) :: combine (b :: l) (l ++ [z])) in *.
    rewrite !zsum_cons. rewrite IH; [|intros p I; apply C; right; auto|intros e I; apply W; right; auto]. cbn [fst snd].
    rewrite (rquad d q (g a) (g b) (f a) (f b)); auto; [lia| | |].
    + apply C. left; auto. + apply C. right. left. auto. + apply (W (a, b)). left; auto.
Qed.
Lemma rring_map {A B} (f : A -> B) (c : list A) : rring (map f c) = map (fun e => (f (fst e), f (snd e))) (rring c).
Proof.
  destruct c as [|a l]; auto. unfold rring. cbn [map]. replace (map f l ++ [f a]) with (map f (l ++ [a])) by (rewrite map_app; reflexivity).
  change (f a :: map f l) with (map f (a :: l)). generalize (a :: l) (l ++ [a]). induction l0 as [|x l0 IH]; intros [|y m]; auto. cbn. f_equal. auto.
Qed.
Lemma rring_edges (c : list pt) : rring c = edges c. Proof. destruct c; reflexivity. Qed.
Theorem rcontour_move {A} d q (f g : A -> rpt) c : 0 <= d -> (forall p, In p c -> rclose d (f p) (g p)) ->
  (forall e, In e (rring c) -> ~ rwithin d (g (fst e)) (g (snd e)) q) ->
  zsum (fun e => rwind q (f (fst e), f (snd e))) (rring c) = zsum (fun e => rwind q (g (fst e), g (snd e))) (rring c).
Proof.
  intros D C W. destruct c as [|a l]; auto. unfold rring. rewrite (rchain_move d q f g D l a a); [lia| |exact W].
  intros p [<-|I]; [apply C; left; auto|]. apply in_app_iff in I as [I|[<-|[]]]; apply C; simpl; auto.
Qed.

(** ** Rational points of an edge are everywhere *)
Lemma rational_near t eps : 0 <= t <= 1 -> 0 < eps -> exists u : Q, (0 <= u <= 1)%Q /\ Rabs (t - Q2R u) <= eps.
Proof.
  intros [T0 T1] E. destruct (archimed (/ eps)) as [Up _]. set (n := up (/ eps)) in *.
  assert (E' : 0 < / eps) by (apply Rinv_0_lt_compat; auto). assert (N0 : 0 < IZR n) by lra. assert (Nz : (0 < n)%Z) by (apply lt_IZR; auto).
  destruct n as [|n|n]; try lia. set (k := Int_part (IZR (Z.pos n) * t)). destruct (base_Int_part (IZR (Z.pos n) * t)) as [B1 B2]. fold k in B1, B2.
  assert (M0 : 0 <= IZR (Z.pos n) * t) by (apply Rmult_le_pos; lra). assert (M1 : IZR (Z.pos n) * t <= IZR (Z.pos n)) by (rewrite <- (Rmult_1_r (IZR (Z.pos n))) at 2; apply Rmult_le_compat_l; lra).
  assert (K0 : (-1 < k)%Z) by (apply lt_IZR; lra). assert (K1 : (k <= Z.pos n)%Z) by (apply le_IZR; lra).
  exists (k # n). split.
  - split; unfold Qle; cbn [Qnum Qden]; lia.
  - assert (Eu : Q2R (k # n) = IZR k * / IZR (Z.pos n)) by reflexivity. rewrite Eu. set (x := IZR (Z.pos n)) in *.
    assert (P : t - IZR k * / x = (x * t - IZR k) * / x) by (field; lra). rewrite P. assert (Ix : 0 < / x) by (apply Rinv_0_lt_compat; lra).
    assert (Ie : / x <= eps). { rewrite <- (Rinv_inv eps). apply Rinv_le_contravar; lra. }
    rewrite Rabs_pos_eq by (apply Rmult_le_pos; lra). apply Rle_trans with (1 * / x); [apply Rmult_le_compat_r; lra|lra].
Qed.

(** ** Distances *)
(** [q] is more than [e] away from the points [N] *)
Definition apart (e : R) (N : qpt -> Prop) (q : qpt) : Prop := forall m, N m -> ~ rclose e (rq m) (rq q).
Lemma edge_apart (N : qpt -> Prop) a b q e e' : (forall m, on_seg (XS a b) m -> N m) -> apart e' N q -> e < e' -> ~ rwithin e (rz a) (rz b) (rq q).
Proof.
  intros H A L (t & T & X & Y). set (dx := fst (rz b) - fst (rz a)) in *. set (dy := snd (rz b) - snd (rz a)) in *.
  set (w := Rabs dx + Rabs dy + 1). assert (W : 0 < w) by (unfold w; pose proof (Rabs_pos dx); pose proof (Rabs_pos dy); lra).
  destruct (rational_near t ((e' - e) / w) T) as (u & U & D).
  { apply Rdiv_lt_0_compat; lra. }
  assert (Dw : (e' - e) / w * w = e' - e) by (field; lra).
  set (m := (inject_Z (px a) + u * (inject_Z (px b) - inject_Z (px a)), inject_Z (py a) + u * (inject_Z (py b) - inject_Z (py a)))%Q).
  assert (M : rq m = (fst (rz a) + Q2R u * dx, snd (rz a) + Q2R u * dy)).
  { unfold rq, m, dx, dy, rz. cbn [fst snd]. unfold Qminus. rewrite !Q2R_plus, !Q2R_mult, !Q2R_plus, !Q2R_opp, !Q2R_z. f_equal; ring. }
  assert (K : forall z v r, Rabs z <= w -> Rabs (r - (v + t * z)) <= e -> Rabs ((v + Q2R u * z) - r) <= e').
  { intros z v r Z V. replace ((v + Q2R u * z) - r) with (- (r - (v + t * z)) + - ((t - Q2R u) * z)) by ring.
    eapply Rle_trans; [apply Rabs_triang|]. rewrite !Rabs_Ropp, Rabs_mult.
    assert (Rabs (t - Q2R u) * Rabs z <= (e' - e) / w * w) by (apply Rmult_le_compat; auto using Rabs_pos). lra. }
  apply (A m).
  - apply H. exists u. split; auto. split; reflexivity.
  - rewrite M. split; cbn [fst snd]; apply K; auto; unfold w; pose proof (Rabs_pos dx); pose proof (Rabs_pos dy); lra.
Qed.
Lemma rwithin_close d e a b p q : rwithin d a b p -> rclose e p q -> rwithin (d + e) a b q.
Proof.
  intros (t & T & X & Y) [A B]. exists t. split; auto. rewrite !Rabs_iff in *. lra.
Qed.
Lemma clear_apart m D segs q : clear_of D segs q -> apart (IZR D - IZR m) (near_segs m segs) q.
Proof.
  intros C x (s & Is & W) R. apply (C s Is). pose proof (rwithin_close _ _ _ _ _ _ (within_real _ _ _ _ W) R) as H.
  replace (IZR m + (IZR D - IZR m)) with (IZR D) in H by ring. exact H.
Qed.

(** ** The way back *)
(** The part of the adapter ([FloatPointAdapter] of i_float) that the model uses, and the clean-up of float contours of i_shape *)
Section Back.
  Variable back : pt -> rpt.
  Variable float_clean : list (list (list rpt)) -> list (list (list rpt)).
  (** [mesh/stroke/offset.rs:99-105], [mesh/outline/offset.rs:174-181]: [shapes.to_float(&adapter)] and, if [filter.clean_result], [simplify_contour].
      Nothing stays nothing, also where the code returns early ([mesh/stroke/offset.rs:77-79], [:91-94], [mesh/outline/offset.rs:107-117]). *)
  Definition float_shapes (clean_result : bool) (shapes : list (list (list pt))) : list (list (list rpt)) :=
    match shapes with
    | [] => []
    | _ => let f := map (map (map back)) shapes in if clean_result then float_clean f else f
    end.
  (** contracts: the adapter scales by [s] around [o], and back up to [delta] units of the grid; cleaning up changes winding numbers at most [eta] units away from the contours *)
  Definition back_ok (s : R) (o : rpt) (delta : R) : Prop := 0 < s /\ 0 <= delta /\ forall i, bounded_pt i -> rclose delta (rplace s o (back i)) (rz i).
  Definition float_clean_ok (s : R) (o : rpt) (eta : R) : Prop := 0 <= eta /\ forall shapes p,
    (forall c e, In c (concat shapes) -> In e (rring c) -> ~ rwithin eta (rplace s o (fst e)) (rplace s o (snd e)) (rplace s o p)) ->
    rcontours_wind (concat (float_clean shapes)) p = rcontours_wind (concat shapes) p.

  Variables (s : R) (o : rpt) (delta eta : R).
  Hypothesis Bk : back_ok s o delta.
  Lemma edge_in c e : In e (edges c) -> In (fst e) c /\ In (snd e) c.
  Proof.
    destruct c as [|x l]; [intros []|]. unfold edges. destruct e as [u v]. intro I. split; [eapply in_combine_l; eauto|]. apply in_combine_r in I. apply in_app_iff in I as [I|[<-|[]]]; simpl; auto.
  Qed.
  Lemma back_contour c p q : rplace s o p = rq q -> (forall i, In i c -> bounded_pt i) -> (forall e, In e (edges c) -> ~ rwithin delta (rz (fst e)) (rz (snd e)) (rq q)) ->
    rcontour_wind (map back c) p = contour_wind c q.
  Proof.
    intros Pq B A. destruct Bk as (S0 & D0 & Bo). unfold rcontour_wind. rewrite rring_map, Base.zsum_map.
    transitivity (zsum (fun e => rwind (rq q) (rplace s o (back (fst e)), rplace s o (back (snd e)))) (rring c)).
    { apply zsum_ext. intros e. cbn [fst snd]. rewrite <- Pq. symmetry. apply rwind_place; auto. }
    rewrite (rcontour_move delta (rq q) (fun i => rplace s o (back i)) rz c D0); [|intros i I; apply Bo; auto|rewrite rring_edges; auto].
    unfold contour_wind. rewrite rring_edges. apply zsum_ext. intros [a b]. cbn [fst snd]. symmetry. apply edge_wind_real.
  Qed.
  (** Away from the edges of the integer contours the contours returned wind as they do. *)
  Theorem back_wind clean_result shapes p q (N : qpt -> Prop) e : rplace s o p = rq q -> (clean_result = true -> float_clean_ok s o eta) -> 0 <= eta ->
    (forall c i, In c (concat shapes) -> In i c -> bounded_pt i) -> edges_at N (concat shapes) -> apart e N q -> delta + eta < e ->
    rcontours_wind (concat (float_shapes clean_result shapes)) p = contours_wind (concat shapes) q.
  Proof.
    intros Pq Fc E0 B Ed A L. destruct shapes as [|sh0 shs]; [reflexivity|]. set (shapes := sh0 :: shs) in *.
    assert (K : forall c e', In c (concat shapes) -> In e' (edges c) -> ~ rwithin (delta + eta) (rz (fst e')) (rz (snd e')) (rq q)).
    { intros c e' Ic Ie. apply (edge_apart N (fst e') (snd e') q (delta + eta) e); auto. intros m Om. eapply Ed; eauto. }
    assert (W : rcontours_wind (concat (map (map (map back)) shapes)) p = contours_wind (concat shapes) q).
    { unfold rcontours_wind, contours_wind. rewrite <- concat_map, Base.zsum_map. apply zsum_ext_in. intros c Ic. apply back_contour; [auto|eauto|].
      intros e' Ie (t & T & X & Y). apply (K c e' Ic Ie). exists t. split; auto. rewrite !Rabs_iff in *. lra. }
    unfold float_shapes. fold shapes. change (match shapes with [] => [] | _ => ?x end) with x. cbv zeta. destruct clean_result; auto. rewrite <- W. destruct (Fc eq_refl) as [_ F]. apply F.
    intros c e' Ic Ie Wi. rewrite <- concat_map in Ic. apply in_map_iff in Ic as (c' & <- & Ic). rewrite rring_map, rring_edges in Ie. apply in_map_iff in Ie as (e1 & <- & Ie). cbn [fst snd] in Wi.
    destruct (edge_in c' e1 Ie) as [I1 I2]. destruct Bk as (_ & _ & Bo). rewrite Pq in Wi. apply (K c' e1 Ic Ie).
    eapply rwithin_move; [| |exact Wi]; apply Bo; eauto.
  Qed.
  (** and their edges, if they are not cleaned up, are where the edges of the integer contours are *)
  Theorem back_edges shapes c f x q (N : qpt -> Prop) e : rplace s o x = rq q -> (forall c i, In c (concat shapes) -> In i c -> bounded_pt i) -> edges_at N (concat shapes) ->
    In c (concat (float_shapes false shapes)) -> In f (rring c) -> (exists t, 0 <= t <= 1 /\ x = (fst (fst f) + t * (fst (snd f) - fst (fst f)), snd (fst f) + t * (snd (snd f) - snd (fst f)))) ->
    delta < e -> ~ apart e N q.
  Proof.
    intros Pq B Ed Ic If (t & T & X) L A. destruct shapes as [|sh0 shs]; [destruct Ic|]. set (shapes := sh0 :: shs) in *. change (float_shapes false shapes) with (map (map (map back)) shapes) in Ic.
    rewrite <- concat_map in Ic. apply in_map_iff in Ic as (c' & <- & Ic). rewrite rring_map, rring_edges in If. apply in_map_iff in If as (e1 & <- & Ie). cbn [fst snd] in X.
    destruct (edge_in c' e1 Ie) as [I1 I2]. destruct Bk as (_ & _ & Bo).
    apply (edge_apart N (fst e1) (snd e1) q delta e); auto; [intros m Om; eapply Ed; eauto|].
    replace delta with (delta + 0) by ring. apply (rwithin_move delta 0 _ _ (rplace s o (back (fst e1))) (rplace s o (back (snd e1)))); [apply Bo; eauto|apply Bo; eauto|].
    rewrite <- Pq. exists t. split; auto. subst x. unfold rplace. cbn [fst snd]. split; rewrite Rabs_iff; lra.
  Qed.
End Back.
