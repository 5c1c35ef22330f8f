(** * An outline covers the contour and the pieces along it (or the contour without them). *)
From Verif Require Import Base Spec QLib ModelSegm SegmProofs SplitNear ModelMesh MeshProofs MeshStrip.
From Coq Require Import Reals Lra Psatz Qreals.
From Verif Require Import RealMesh RealJoin RealReach RealMiter RealWind RealMove RealCorner RealStroke RealPieces RealCount RealCover RealOuter RealShift.
Open Scope Z_scope.

(** ** Sums around a ring *)
Section Sums.
  Context {E : Type}.
  Lemma stripz_scale (c : Z) (h w : E -> Z) (J : E -> E -> Z) : forall rest e,
    stripz (fun e => c * h e + w e) (fun f g => c * J f g) e rest = c * stripz h J e rest + zsum w (e :: rest).
  Proof.
    induction rest as [|f rest IH]; intro e; cbn [stripz].
    - rewrite zsum_cons. change (zsum w []) with 0. lia.
    - rewrite IH, (zsum_cons w e). lia.
  Qed.
  Lemma ring_halves (h h1 h2 : E -> Z) (O I : E -> E -> Z) e rest :
    (forall f, In f (e :: rest) -> h f = h1 f + h2 f) -> (forall f g, followed_ring (e :: rest) f g -> 0 <= O f g /\ I f g <= h2 f + h1 g) ->
    0 <= stripz h (fun f g => O f g - I f g) e rest + (O (last rest e) e - I (last rest e) e).
  Proof.
    intros H C. destruct (C (last rest e) e) as [C1 C2]; [right; exists rest; auto|].
    assert (L : forall rest e, (forall f, In f (e :: rest) -> h f = h1 f + h2 f) -> (forall f g, followed (e :: rest) f g -> 0 <= O f g /\ I f g <= h2 f + h1 g) ->
      h1 e + h2 (last rest e) <= stripz h (fun f g => O f g - I f g) e rest).
    { clear. induction rest as [|f rest IH]; intros e H C; cbn [stripz].
      - cbn [last]. rewrite (H e) by (simpl; auto). lia.
      - rewrite last_cons. specialize (IH f ltac:(intros; apply H; right; auto) ltac:(intros; apply C, followed_cons; auto)). destruct (C e f (followed_hd e f rest)). rewrite (H e) by (simpl; auto). lia. }
    specialize (L rest e H ltac:(intros f g F; apply C; left; auto)). lia.
  Qed.
  Lemma followed_steps : forall l (f g : E), In (f, g) (steps l) <-> followed l f g.
  Proof.
    induction l as [|a [|b l] IH]; intros f g.
    - split; [intros []|intros (m & n & H); destruct m; discriminate].
    - split; [intros []|intros (m & n & H); destruct m as [|? [|]]; discriminate].
    - change (steps (a :: b :: l)) with ((a, b) :: steps (b :: l)). split.
      + intros [Q|I]; [injection Q as <- <-; apply followed_hd|apply followed_cons, IH; auto].
      + intros (m & n & H). destruct m as [|c m]; cbn [app] in H; [injection H as -> -> _; left; auto|]. injection H as _ H. right. apply IH. exists m, n. exact H.
  Qed.
  (** some pair of neighbours, or none *)
  Lemma ring_dec (P : E -> E -> bool) e rest : (exists f g, followed_ring (e :: rest) f g /\ P f g = true) \/ (forall f g, followed_ring (e :: rest) f g -> P f g = false).
  Proof.
    destruct (P (last rest e) e) eqn:L; [left; exists (last rest e), e; split; auto; right; exists rest; auto|].
    destruct (existsb (fun d => P (fst d) (snd d)) (steps (e :: rest))) eqn:X.
    - apply existsb_exists in X as ((f & g) & I & X). left. exists f, g. split; auto. left. apply followed_steps, I.
    - right. intros f g [F|(r & Q & ->)].
      + destruct (P f g) eqn:Y; auto. assert (existsb (fun d => P (fst d) (snd d)) (steps (e :: rest)) = true); [|congruence]. apply existsb_exists. exists (f, g). split; auto. apply followed_steps, F.
      + injection Q as <- <-. exact L.
  Qed.
End Sums.
Lemma followed_ring_in {E} (sides : list E) f g : followed_ring sides f g -> In f sides /\ In g sides.
Proof. intros [H|(r & -> & ->)]; [apply followed_in; auto|split; [apply last_in|simpl; auto]]. Qed.
Lemma steps_in {A} : forall (l : list A) x y, In (x, y) (steps l) -> In x l /\ In y l.
Proof. induction l as [|a [|b l] IH]; intros x y I; [destruct I|destruct I|]. change (steps (a :: b :: l)) with ((a, b) :: steps (b :: l)) in I. destruct I as [E|I]; [injection E as <- <-; simpl; auto|]. destruct (IH x y I). simpl in *. tauto. Qed.

(** ** The winding number of what is drawn *)
Section Count.
  Variables (to_int : rpt -> pt) (j : line_join RF) (k : R) (q : qpt).
  Hypothesis Nk : (k <> 0)%R.
  Notation och := (och k to_int j).
  Notation la := (la k). Notation lb := (lb k).
  Notation sec := (fun e : rside => osection_new RF k (fst e) (snd e)).
  Notation joinf := (outline_join RF to_int k (join_normalize RF j)).
  Notation wi := (wi to_int q). Notation cl := (cl to_int q). Notation far_segs := (far_segs q).
  Lemma osec_wind e : segs_wind q (o_add_section RF to_int (sec e)) = wi (la e, lb e).
  Proof. cbv beta. rewrite osection_real. unfold o_add_section, segs_wind, RealCount.wi. cbn [os_btop os_atop fst snd]. rewrite zsum_cons, travel_bold. change (zsum (fun s : segment cntO => edge_wind q (travel s)) []) with 0. rewrite Z.add_0_r. reflexivity. Qed.
  Lemma osec_clear e : far_segs (o_add_section RF to_int (sec e)) -> cl (la e) (lb e).
  Proof. cbv beta. rewrite osection_real. unfold o_add_section, RealCount.far_segs. cbn [os_btop os_atop]. intro H. specialize (H _ (or_introl eq_refl)). rewrite travel_bold in H. exact H. Qed.
  Section Join.
    Variables (e f : rside).
    Hypothesis Ne : fst e <> snd e.
    Hypothesis Nf : fst f <> snd f.
    Hypothesis Ch : snd e = fst f.
    Lemma ojoined : forth (joinf (sec e) (sec f)) (map to_int (och e f)).
    Proof.
      pose proof (ocorner_joined to_int (fst e) (snd e) (snd f) k Ne) as H. rewrite Ch in H at 1. specialize (H Nf j). cbv beta. rewrite <- Ch. unfold RealShift.och, RealPieces.la, RealPieces.lb, dir_of. rewrite <- Ch. exact H.
    Qed.
    Lemma ojoin_wind : segs_wind q (joinf (sec e) (sec f)) = zsum wi (steps (och e f)).
    Proof. destruct ojoined as [A _]. rewrite A. apply chain_wi. Qed.
    Lemma ojoin_clear : far_segs (joinf (sec e) (sec f)) -> cl (la e) (lb e) -> forall a b, In (a, b) (steps (och e f)) -> cl a b.
    Proof.
      intros F C1 a b I. destruct ojoined as [_ A].
      apply (chain_clear to_int q (och e f) (fun x y => In (x, y) (map travel (joinf (sec e) (sec f))))); auto.
      - intros x y J. apply in_map_iff in J as (s & Q & J). specialize (F s J). rewrite Q in F. exact F.
      - intros x y J. destruct (A x y J); auto.
      - intros x m Q. unfold RealShift.och in Q. injection Q as <- _. intro K. apply C1, rwithin_b, K.
    Qed.
  End Join.
  Lemma ostrip_wind : forall rest e, (forall f, In f (e :: rest) -> fst f <> snd f) -> (forall f g, followed (e :: rest) f g -> snd f = fst g) ->
    segs_wind q (strip RF sec (o_add_section RF to_int) joinf e rest) = stripz (fun e => wi (la e, lb e)) (fun e f => zsum wi (steps (och e f))) e rest.
  Proof.
    induction rest as [|f rest IH]; intros e N Ch; cbn [strip stripz].
    - rewrite app_nil_r, osec_wind. lia.
    - rewrite !segs_wind_app, osec_wind. rewrite (ojoin_wind e f); [|apply N; simpl; auto|apply N; simpl; auto|apply Ch, followed_hd]. rewrite (IH f); [lia|intros; apply N; right; auto|intros; apply Ch, followed_cons; auto].
  Qed.
  Lemma ostrip_clear : forall rest e, (forall f, In f (e :: rest) -> fst f <> snd f) -> (forall f g, followed (e :: rest) f g -> snd f = fst g) ->
    far_segs (strip RF sec (o_add_section RF to_int) joinf e rest) ->
    (forall f, In f (e :: rest) -> cl (la f) (lb f)) /\ (forall f g, followed (e :: rest) f g -> forall a b, In (a, b) (steps (och f g)) -> cl a b).
  Proof.
    induction rest as [|f rest IH]; intros e N Ch F; cbn [strip] in F.
    - split; [|intros f g (l & m & Q); destruct l as [|? [|]]; discriminate]. intros f [<-|[]]. apply osec_clear. intros s I. apply F. apply in_or_app; auto.
    - assert (He : cl (la e) (lb e)) by (apply osec_clear; intros s I; apply F; apply in_or_app; auto).
      destruct (IH f) as [A B]; [intros; apply N; right; auto|intros; apply Ch, followed_cons; auto|intros s I; apply F; apply in_or_app; right; apply in_or_app; auto|]. split.
      + intros g [<-|I]; auto.
      + intros g h (l & m & Q). destruct l as [|x l].
        * cbn [app] in Q. injection Q as <- <- _. apply ojoin_clear; [apply N; simpl; auto|apply N; simpl; auto|apply Ch, followed_hd| |apply He]. intros s I. apply F. apply in_or_app. right. apply in_or_app. auto.
        * cbn [app] in Q. injection Q as _ Q. apply B. exists l, m. exact Q.
  Qed.
  Section Placed.
    Variables (s : R) (o p : rpt).
    Hypothesis Ps : (0 < s)%R.
    Hypothesis Pq : rplace s o p = rq q.
    Notation ok := (ok to_int s o). Notation hh := (hh to_int q s o).
    Definition obo (e : rside) : Z := rwind p (snd e, lb e) - hh (lb e).
    Definition oto (e : rside) : Z := rwind p (fst e, la e) - hh (la e).
    Lemma osec_real e : cl (la e) (lb e) -> ok (la e) -> ok (lb e) -> wi (la e, lb e) = (eps k * slab k p e + rwind p e) + obo e - oto e.
    Proof.
      intros C A B. rewrite (wi_real to_int q s o p Ps Pq) by auto. rewrite <- slab_wind by exact Nk. unfold wind4, obo, oto. destruct e as [x y]. cbn [fst snd].
      pose proof (rwind_anti p (lb (x, y)) y). pose proof (rwind_anti p y x). lia.
    Qed.
    Lemma ojoin_real e f : snd e = fst f -> (forall a b, In (a, b) (steps (och e f)) -> cl a b) -> (forall a, In a (och e f) -> ok a) ->
      zsum wi (steps (och e f)) = eps k * (outw k to_int j p e f - inw k p e f) - obo e + oto f.
    Proof.
      intros Ch C A. unfold RealShift.och in *. set (m := omids _ _ _ _ _ _) in *.
      assert (P1 : forall x y, In (x, y) (steps (lb e :: m ++ [la f])) -> wi (x, y) = rwind p (x, y) + hh x - hh y) by (intros x y I; destruct (steps_in _ _ _ I); apply (wi_real to_int q s o p Ps Pq); auto).
      rewrite (chain_pot _ _ _ _ _ _ P1). rewrite (ctris_pot p (snd e)). pose proof (corner_split k to_int j p e f) as S. unfold RealShift.och in S. fold m in S. rewrite S. unfold obo, oto. rewrite <- Ch. lia.
    Qed.
    Variables (e : rside) (rest : list rside).
    Notation sides := (e :: rest).
    Hypothesis N : forall f, In f sides -> fst f <> snd f.
    Definition gain : Z := stripz (slab k p) (fun f g => outw k to_int j p f g - inw k p f g) e rest + (outw k to_int j p (last rest e) e - inw k p (last rest e) e).
    Lemma oring_real : (forall f g, followed_ring sides f g -> snd f = fst g) -> far_segs (MeshStrip.ring RF sec (o_add_section RF to_int) joinf sides) ->
      (forall f, In f sides -> ok (la f) /\ ok (lb f)) -> (forall f g, followed_ring sides f g -> forall a, In a (och f g) -> ok a) ->
      segs_wind q (MeshStrip.ring RF sec (o_add_section RF to_int) joinf sides) = zsum (rwind p) sides + eps k * gain.
    Proof.
      intros Ch F O1 O2. unfold MeshStrip.ring in *.
      assert (F2 : far_segs (strip RF sec (o_add_section RF to_int) joinf e rest)) by (intros x Ix; apply F; apply in_or_app; auto).
      assert (F3 : far_segs (joinf (sec (last rest e)) (sec e))) by (intros x Ix; apply F; apply in_or_app; auto).
      assert (Fl : followed_ring sides (last rest e) e) by (right; exists rest; auto). pose proof (Ch _ _ Fl) as El.
      assert (Ch' : forall f g, followed sides f g -> snd f = fst g) by (intros f g H; apply Ch; left; auto).
      assert (Il : In (last rest e) sides) by apply last_in. assert (Ie : In e sides) by (simpl; auto).
      destruct (ostrip_clear rest e N Ch' F2) as [C1 C2]. rewrite segs_wind_app, ostrip_wind by auto.
      rewrite (stripz_pot _ (fun e => eps k * slab k p e + rwind p e) _ (fun f g => eps k * (outw k to_int j p f g - inw k p f g)) obo oto rest e).
      - rewrite stripz_scale. pose proof (ojoin_wind (last rest e) e (N _ Il) (N _ Ie) El) as J. cbv beta in J.
        match goal with |- (_ + ?b)%Z = _ => change b with (segs_wind q (joinf (osection_new RF k (fst (last rest e)) (snd (last rest e))) (osection_new RF k (fst e) (snd e)))) end. rewrite J.
        rewrite (ojoin_real (last rest e) e); auto; [unfold gain; lia| |apply O2; auto].
        apply ojoin_clear; auto.
      - intros f I. destruct (O1 f I). apply osec_real; auto.
      - intros f g Fg. apply ojoin_real; auto; [apply C2; auto|apply O2; left; auto].
    Qed.
  End Placed.
End Count.
