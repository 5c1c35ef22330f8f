(** * The winding number of the segments of a stroke is that of the rectangles around the sides, of the outer parts of the
    corners and of the caps, less that of the inner parts of the corners. *)
From Verif Require Import Base Spec QLib ModelSegm SegmProofs SplitNear ModelMesh MeshProofs MeshStrip.
From Coq Require Import Reals Lra Psatz Qreals.
From Verif Require Import RealMesh RealJoin RealReach RealMiter RealWind RealMove RealCorner.
Open Scope Z_scope.

(** ** Sums along a strip *)
Section Sums.
  Context {E : Type}.
  Fixpoint stripz (R : E -> Z) (J : E -> E -> Z) (e : E) (rest : list E) : Z :=
    R e + match rest with [] => 0 | f :: r => J e f + stripz R J f r end.
  Definition followed (sides : list E) (e f : E) : Prop := exists l m, sides = l ++ e :: f :: m.
  Lemma followed_cons a sides e f : followed sides e f -> followed (a :: sides) e f.
  Proof. intros (l & m & ->). exists (a :: l), m. reflexivity. Qed.
  Lemma followed_hd e f r : followed (e :: f :: r) e f.
  Proof. exists [], r. reflexivity. Qed.
  Lemma followed_in sides e f : followed sides e f -> In e sides /\ In f sides.
  Proof. intros (l & m & ->). split; apply in_or_app; simpl; auto. Qed.
  Lemma last_cons : forall r (e f : E), last (f :: r) e = last r f.
  Proof. induction r as [|g r IH]; intros e f; auto. change (last (g :: r) e = last (g :: r) f). rewrite !IH. reflexivity. Qed.
  Lemma last_in : forall r (e : E), In (last r e) (e :: r).
  Proof. induction r as [|f r IH]; intro e; [left; auto|]. rewrite last_cons. right. apply IH. Qed.
  Lemma last_app_cons g : forall r l (e : E), last (l ++ g :: r) e = last r g.
  Proof. induction l as [|a l IH]; intro e; cbn [app]; rewrite last_cons; auto. Qed.
  Lemma stripz_pot (R R' : E -> Z) (J J' : E -> E -> Z) (bo to : E -> Z) : forall rest e,
    (forall f, In f (e :: rest) -> R f = R' f + bo f - to f) -> (forall f g, followed (e :: rest) f g -> J f g = J' f g - bo f + to g) ->
    stripz R J e rest = stripz R' J' e rest + bo (last rest e) - to e.
  Proof.
    induction rest as [|f r IH]; intros e HR HJ; cbn [stripz].
    - rewrite (HR e) by (left; auto). cbn [last]. lia.
    - rewrite (HR e) by (left; auto). rewrite (HJ e f) by apply followed_hd. rewrite (IH f); [|intros; apply HR; right; auto|intros; apply HJ, followed_cons; auto].
      rewrite last_cons. lia.
  Qed.
  Variables (R : E -> Z) (O I : E -> E -> Z).
  Lemma strip_count : forall rest e,
    (forall f, In f (e :: rest) -> 0 <= R f <= 1) ->
    (forall f g, followed (e :: rest) f g -> 0 <= O f g /\ 0 <= I f g /\ I f g <= R f /\ I f g <= R g) ->
    let t := stripz R (fun f g => O f g - I f g) e rest in
    R e <= t /\ R (last rest e) <= t /\ (forall f, In f (e :: rest) -> R f <= t) /\ (forall f g, followed (e :: rest) f g -> O f g <= t).
  Proof.
    induction rest as [|f r IH]; intros e HR HJ; cbn [stripz]; cbv zeta.
    - pose proof (HR e (or_introl eq_refl)). cbn [last]. split; [lia|]. split; [lia|]. split; [intros f [<-|[]]; lia|]. intros f g (l & m & Q). destruct l as [|? [|]]; discriminate.
    - pose proof (HR e (or_introl eq_refl)) as He. pose proof (HJ e f (followed_hd _ _ _)) as (A & B & C & D).
      destruct (IH f ltac:(intros; apply HR; right; auto) ltac:(intros; apply HJ, followed_cons; auto)) as (T1 & T2 & T3 & T4). set (t := stripz R _ f r) in *.
      rewrite last_cons.
      split; [lia|]. split; [lia|]. split.
      + intros g [<-|G]; [lia|]. specialize (T3 g G). lia.
      + intros g h (l & m & G). destruct l as [|a l]; cbn [app] in G.
        * injection G as <- <- _. lia.
        * injection G as _ G. specialize (T4 g h). rewrite G in T4. specialize (T4 (ex_intro _ l (ex_intro _ m eq_refl))). lia.
  Qed.
  Lemma strip_only : forall rest e, (forall f g, followed (e :: rest) f g -> 0 <= I f g) ->
    0 < stripz R (fun f g => O f g - I f g) e rest -> (exists f, In f (e :: rest) /\ 0 < R f) \/ (exists f g, followed (e :: rest) f g /\ 0 < O f g).
  Proof.
    induction rest as [|f r IH]; intros e HJ; cbn [stripz]; intro H.
    - left. exists e. split; [left; auto|lia].
    - pose proof (HJ e f (followed_hd _ _ _)). destruct (Z_lt_le_dec 0 (R e)); [left; exists e; split; [left|]; auto|]. destruct (Z_lt_le_dec 0 (O e f)); [right; exists e, f; split; [apply followed_hd|auto]|].
      destruct (IH f) as [(g & G & P)|(g & h & G & P)]; [intros; apply HJ, followed_cons; auto|lia|left; exists g; split; [right|]; auto|right; exists g, h; split; [apply followed_cons|]; auto].
  Qed.
  Lemma stripz_app g r : forall l e, stripz R (fun f g => O f g - I f g) e (l ++ g :: r) =
    stripz R (fun f g => O f g - I f g) e l + (O (last l e) g - I (last l e) g) + stripz R (fun f g => O f g - I f g) g r.
  Proof.
    induction l as [|f l IH]; intro e; [cbn [app stripz last]; lia|]. rewrite last_cons. cbn [app stripz]. rewrite IH. lia.
  Qed.
  (** the same for a ring: the inner parts must not all count *)
  Definition followed_ring (sides : list E) (e f : E) : Prop := followed sides e f \/ exists r, sides = f :: r /\ e = last r f.
  Lemma ring_count e rest :
    (forall f, In f (e :: rest) -> 0 <= R f <= 1) ->
    (forall f g, followed_ring (e :: rest) f g -> 0 <= O f g /\ 0 <= I f g /\ I f g <= R f /\ I f g <= R g) ->
    (exists f g, followed_ring (e :: rest) f g /\ I f g = 0) ->
    let t := stripz R (fun f g => O f g - I f g) e rest + (O (last rest e) e - I (last rest e) e) in
    (forall f, In f (e :: rest) -> R f <= t) /\ (forall f g, followed_ring (e :: rest) f g -> 0 < O f g -> 0 < t).
  Proof.
    intros HR HJ (f0 & g0 & F0 & Z0) t.
    destruct (strip_count rest e HR (fun f g H => HJ f g (or_introl H))) as (T1 & T2 & T3 & T4). pose proof (HJ (last rest e) e) as HL.
    assert (FL : followed_ring (e :: rest) (last rest e) e) by (right; exists rest; auto). specialize (HL FL). destruct HL as (A & B & C & D).
    unfold t. set (st := stripz R _ e rest) in *.
    assert (K : I (last rest e) e = 0 \/ 2 <= st).
    { destruct F0 as [(l & m & F)|(r & F & ->)]; [|injection F as <- <-; auto].
      destruct (Z.eq_dec (I (last rest e) e) 0) as [|N]; auto. right.
      assert (R1 : R e = 1) by (pose proof (HR e (or_introl eq_refl)); lia).
      assert (Rl : R (last rest e) = 1) by (pose proof (HR _ (last_in rest e)); lia).
      assert (S : exists l', rest = l' ++ g0 :: m /\ last l' e = f0).
      { destruct l as [|a l]; cbn [app] in F; injection F as -> F; [exists []; auto|]. exists (l ++ [f0]). rewrite <- app_assoc. split; auto. apply last_last. }
      destruct S as (l' & S1 & S2). unfold st. rewrite S1, stripz_app, S2, Z0.
      destruct (strip_count l' e) as (U1 & _).
      { intros f If. apply HR. rewrite S1. destruct If as [->|If]; [left; auto|right; apply in_or_app; auto]. }
      { intros f g (x & w & X). apply HJ. left. rewrite S1. exists x, (w ++ g0 :: m). change (e :: l' ++ g0 :: m) with ((e :: l') ++ g0 :: m). rewrite X, <- app_assoc. reflexivity. }
      destruct (strip_count m g0) as (_ & V2 & _).
      { intros f If. apply HR. rewrite S1. right. apply in_or_app. auto. }
      { intros f g (x & w & X). apply HJ. left. rewrite S1. exists (e :: l' ++ x), w. cbn [app]. rewrite X, <- app_assoc. reflexivity. }
      assert (Lm : last m g0 = last rest e) by (rewrite S1, last_app_cons; auto).
      rewrite Lm, Rl in V2. rewrite R1 in U1. assert (0 <= O f0 g0) by (apply HJ; left; exists l, m; auto). lia. }
    pose proof (HR e (or_introl eq_refl)) as He. split.
    - intros f If. specialize (T3 f If). pose proof (HR f If). destruct K; lia.
    - intros f g [F|(r & F & ->)] P; [|injection F as <- <-; lia]. pose proof (T4 f g F) as X. pose proof (HR e (or_introl eq_refl)). destruct K as [K|K]; lia.
  Qed.
  Lemma ring_only e rest : (forall f g, followed_ring (e :: rest) f g -> 0 <= I f g) ->
    0 < stripz R (fun f g => O f g - I f g) e rest + (O (last rest e) e - I (last rest e) e) ->
    (exists f, In f (e :: rest) /\ 0 < R f) \/ (exists f g, followed_ring (e :: rest) f g /\ 0 < O f g).
  Proof.
    intros HJ H. assert (FL : followed_ring (e :: rest) (last rest e) e) by (right; exists rest; auto). pose proof (HJ _ _ FL).
    destruct (Z_lt_le_dec 0 (O (last rest e) e)); [right; exists (last rest e), e; auto|].
    destruct (strip_only rest e) as [?|(f & g & F & P)]; [intros; apply HJ; left; auto|lia|auto|right; exists f, g; split; [left|]; auto].
  Qed.
End Sums.
