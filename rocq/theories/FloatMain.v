(** * The floating point interface: results relative to the contours given. *)
From Verif Require Import Base Spec QLib ModelSegm SegmProofs MergeProofs PlanarGeo PlanarSum ModelFill ModelFilter FillProofs FillCorrect
  ModelCross CrossProofs CrossPoint MarksProofs CoreResults Properties01 ModelSplit SplitProofs SplitPlanar SplitPass BinsProofs SplitApply SplitLoop
  ModelFrag ModelOverlay OverlayProofs FragProofs GridCover Properties02
  ModelGraph GraphProofs ModelExtract ExtractProofs ContourResults Rotation NextLink Properties03
  MoveLemma SectorLemma Sides WalkSides Orient Properties04 ModelBind BindProofs BindSweep Nest Properties05 SplitNear InputCover Properties15
  ModelFloat FloatSpace FloatProofs OverlayNear.
From Coq Require Import Lqa Qabs.
Open Scope Z_scope.

Section Adapter.
  Variables (a : adapter) (s : Q) (o : qpt) (kappa delta : Q) (fadds : list (list qpt * ShapeType)).
  Hypothesis Ok : adapter_ok a s o kappa delta (concat (map fst fadds)).
  Notation Hs := (ok_s _ _ _ _ _ _ Ok).
  Notation cs := (map fst fadds).

  Lemma near_float d q : near_input d (snap a fadds) (unplace s o q) -> close_to (s * kappa + s * inject_Z d) cs q.
  Proof.
    intros (c & t & e & Ic & Ie & W). apply in_map_iff in Ic as ([c' t'] & E & Ic). injection E as <- <-. cbn [fst] in Ie.
    rewrite <- ring_edges, ring_map in Ie. apply in_map_iff in Ie as (e' & <- & Ie). cbn [fst snd] in W. apply (within_place s o Hs) in W.
    assert (Ic' : In c' cs) by (apply in_map_iff; exists (c', t'); auto).
    assert (P : In (fst e') c' /\ In (snd e') c').
    { destruct c' as [|x l]; [destruct Ie|]. unfold ring in Ie. destruct e' as [u v]. split; [eapply in_combine_l; eauto|]. apply in_combine_r in Ie. apply in_app_iff in Ie as [Ie|[<-|[]]]; simpl; auto. }
    exists c', e'. split; auto. split; auto. eapply qwithin_move; [| |exact W]; apply (ok_in _ _ _ _ _ _ Ok); eapply in_pts; eauto; tauto.
  Qed.
  Lemma unplace_between t x y q : (0 <= t <= 1)%Q -> close 0 q (fst (place s o x) + t * (fst (place s o y) - fst (place s o x)), snd (place s o x) + t * (snd (place s o y) - snd (place s o x)))%Q ->
    on_seg (XS x y) (unplace s o q).
  Proof.
    intros T [X Y]. apply Qabs_le_iff in X, Y. cbn [fst snd] in X, Y. pose proof Hs. exists t. cbn [sa sb]. split; auto.
    assert (X' : (fst q == fst o + s * (qx x + t * (qx y - qx x)))%Q) by (cbn [fst snd place] in X; lra).
    assert (Y' : (snd q == snd o + s * (qy x + t * (qy y - qy x)))%Q) by (cbn [fst snd place] in Y; lra).
    unfold unplace. cbn [fst snd]. rewrite X', Y'. split; field; lra.
  Qed.
  (** an edge of the result near [q]: an edge given near [q] *)
  Lemma edge_float d (c : list pt) e q eps : (forall e q, In e (edges c) -> on_seg (XS (fst e) (snd e)) q -> near_input d (snap a fadds) q) ->
    In e (edges c) -> qwithin eps (place s o (fst e)) (place s o (snd e)) q -> close_to (s * kappa + s * inject_Z d + eps) cs q.
  Proof.
    intros H Ie (t & T & X & Y).
    set (q' := (fst (place s o (fst e)) + t * (fst (place s o (snd e)) - fst (place s o (fst e))), snd (place s o (fst e)) + t * (snd (place s o (snd e)) - snd (place s o (fst e))))%Q).
    assert (On : on_seg (XS (fst e) (snd e)) (unplace s o q')).
    { apply (unplace_between t); auto. unfold close, q'; cbn [fst snd]. split; apply Qabs_le_iff; split; lra. }
    destruct (near_float d q' (H e _ Ie On)) as (c' & e' & Ic' & Ie' & W). exists c', e'. split; auto. split; auto. eapply qwithin_close; [exact W|]. apply close_sym. split; auto.
  Qed.

  Variables (n : nat) (solver : Solver).
  Notation d := (moved (precision solver) n).
  Variables (r : OverlayRule) (fr : FillRule) (clockwise : bool) (shapes : list (list (list pt))).
  Hypothesis Near : result_near n solver (snap a fadds) r fr clockwise shapes.

  Lemma float_contour q c : far_from (s * kappa + s * inject_Z d + delta) cs q -> In c (concat shapes) ->
    qcontour_wind (map (int_to_float a) c) q = contour_wind c (unplace s o q).
  Proof.
    destruct Near as (_ & Ed & Bd). intros Fq Ic.
    rewrite (contour_move delta q (int_to_float a) (place s o) c); [apply contour_place; apply Hs|apply (ok_d _ _ _ _ _ _ Ok)| |].
    - intros p Ip. destruct (Bd c p Ic Ip). apply (ok_out _ _ _ _ _ _ Ok); lia.
    - intros e Ie W. rewrite ring_map, ring_edges in Ie. apply in_map_iff in Ie as (e' & <- & Ie). cbn [fst snd] in W.
      destruct (edge_float d c e' q delta) as (c1 & e1 & I1 & I2 & W1); eauto. exact (Fq c1 e1 I1 I2 W1).
  Qed.
  Lemma float_contours q : far_from (s * kappa + s * inject_Z d + delta) cs q ->
    qcontours_wind (concat (to_float a shapes)) q = contours_wind (concat shapes) (unplace s o q).
  Proof.
    intro Fq. unfold to_float, qcontours_wind, contours_wind. rewrite <- concat_map, zsum_map. apply zsum_ext_in. intros c Ic. apply float_contour; auto.
  Qed.
  Lemma float_edges_near c e q : In c (concat (to_float a shapes)) -> In e (ring c) -> forall eps, qwithin eps (fst e) (snd e) q ->
    close_to (s * kappa + s * inject_Z d + delta + eps) cs q.
  Proof.
    destruct Near as (_ & Ed & Bd). unfold to_float. rewrite <- concat_map. intros Ic Ie eps W. apply in_map_iff in Ic as (c' & <- & Ic).
    rewrite ring_map, ring_edges in Ie. apply in_map_iff in Ie as (e' & <- & Ie). cbn [fst snd] in W.
    assert (P : In (fst e') c' /\ In (snd e') c').
    { destruct c' as [|x l]; [destruct Ie|]. unfold edges in Ie. destruct e' as [u v]. split; [eapply in_combine_l; eauto|]. apply in_combine_r in Ie. apply in_app_iff in Ie as [Ie|[<-|[]]]; simpl; auto. }
    assert (C : forall p, In p c' -> close delta (int_to_float a p) (place s o p)).
    { intros p Ip. destruct (Bd c' p Ic Ip). apply (ok_out _ _ _ _ _ _ Ok); lia. }
    assert (W' : qwithin (delta + eps) (place s o (fst e')) (place s o (snd e')) q) by (eapply qwithin_move; [| |exact W]; apply C; tauto).
    destruct (edge_float d c' e' q (delta + eps)) as (c1 & e1 & I1 & I2 & W1); eauto. exists c1, e1. split; auto. split; auto. eapply qwithin_mono; [|exact W1]. lra.
  Qed.
  Lemma float_near float_clean f eta q : (f_clean f = true -> float_clean_ok float_clean a eta) -> (0 <= eta)%Q ->
    far_from (s * kappa + s * inject_Z d + delta + eta) cs q ->
    qcontours_wind (concat (float_result float_clean a f shapes)) q =
      if bool_op r (inside fr (qcontours_wind (foperand Subject fadds) q)) (inside fr (qcontours_wind (foperand Clip fadds) q)) then sign_of clockwise else 0.
  Proof.
    intros Fc Eta Fq. pose proof (ok_s _ _ _ _ _ _ Ok). pose proof (ok_k _ _ _ _ _ _ Ok). pose proof (ok_d _ _ _ _ _ _ Ok).
    assert (D0 : (0 <= s * inject_Z d)%Q).
    { apply Qmult_le_0_compat; [lra|]. change 0%Q with (inject_Z 0). rewrite <- Zle_Qle. rewrite <- drift_moved. apply drift_pos. }
    assert (K0 : (0 <= s * kappa)%Q) by (apply Qmult_le_0_compat; lra).
    assert (F1 : far_from (s * kappa + s * inject_Z d + delta) cs q) by (eapply far_mono; [|exact Fq]; lra).
    assert (F2 : far_from (s * kappa + s * inject_Z d) cs q) by (eapply far_mono; [|exact Fq]; lra).
    assert (F3 : far_from (s * kappa) cs q) by (eapply far_mono; [|exact Fq]; lra).
    assert (M : qcontours_wind (concat (to_float a shapes)) q = if bool_op r (inside fr (qcontours_wind (foperand Subject fadds) q)) (inside fr (qcontours_wind (foperand Clip fadds) q)) then sign_of clockwise else 0).
    { rewrite float_contours by auto. destruct Near as (W & _). rewrite W.
      - unfold wanted. rewrite !(snap_operand a s o kappa delta fadds Ok) by auto. reflexivity.
      - intro Nq. destruct (near_float d q Nq) as (c1 & e1 & I1 & I2 & W1). exact (F2 c1 e1 I1 I2 W1). }
    unfold float_result. destruct (f_clean f); auto. rewrite Fc; auto. intros c e Ic Ie W. destruct (float_edges_near c e q Ic Ie eta W) as (c1 & e1 & I1 & I2 & W1). exact (Fq c1 e1 I1 I2 W1).
  Qed.
End Adapter.
