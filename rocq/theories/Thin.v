(** * Dropping points that lie on the segment between their neighbours. *)
From Verif Require Import Base Spec QLib SegmProofs PlanarGeo PlanarSum FillProofs.
From Verif Require Drawn.
From Coq Require Import Permutation QArith.Qfield.
Open Scope Z_scope.

Notation strictly_between := Drawn.strictly_between.
Notation line3 := Drawn.line3.
(** ** Specification *)
(** [c] is [c'] with extra points, each strictly inside an edge, written down from any of its points on:
    [c'] arises from [c] by dropping points that lie between their neighbours *)
Inductive thinned (c' : list pt) : list pt -> Prop :=
| T_same : thinned c' c'
| T_start p l : thinned c' (p :: l) -> thinned c' (l ++ [p])
| T_point a b x l : thinned c' (a :: b :: l) -> strictly_between a b x -> thinned c' (a :: x :: b :: l).

(** ** an edge and the pieces it is cut into *)
Definition up (e : pt * pt) : bool := pt_ltb (fst e) (snd e).
Definition nrm (e : pt * pt) : xseg := if up e then XS (fst e) (snd e) else XS (snd e) (fst e).
Definition sub_of (t s : xseg) : Prop :=
  cross3 (sa t) (sb t) (sa s) = 0 /\ cross3 (sa t) (sb t) (sb s) = 0 /\ ~ pt_lt (sa s) (sa t) /\ ~ pt_lt (sb t) (sb s).
Inductive srun (E : pt * pt) : list (pt * pt) -> Prop :=
| S_one : srun E [E]
| S_cut l1 a b x l2 : srun E (l1 ++ (a, b) :: l2) -> strictly_between a b x -> srun E (l1 ++ (a, x) :: (x, b) :: l2).

Lemma nrm_wf e : fst e <> snd e -> pt_lt (sa (nrm e)) (sb (nrm e)).
Proof.
  intro N. unfold nrm, up. destruct (pt_ltb (fst e) (snd e)) eqn:U; cbn [sa sb]; [apply pt_ltb_lt; auto|].
  apply pt_ltb_ge in U. destruct (pt_total (fst e) (snd e)) as [[L|L]|L]; auto; contradiction.
Qed.
Lemma cr0 a b : cross3 a b a = 0. Proof. unfold cross3; ring. Qed.
Lemma cr1 a b : cross3 a b b = 0. Proof. unfold cross3; ring. Qed.
Lemma sub_refl s : sub_of s s.
Proof. split; [apply cr0|]. split; [apply cr1|]. split; apply pt_lt_irrefl. Qed.
Lemma nlt_trans p q r : ~ pt_lt q p -> ~ pt_lt r q -> ~ pt_lt r p.
Proof. unfold pt_lt. lia. Qed.
Lemma sub_trans t s r : pt_lt (sa s) (sb s) -> pt_lt (sa t) (sb t) -> sub_of t s -> sub_of s r -> sub_of t r.
Proof.
  intros Ws Wt (A1 & A2 & A3 & A4) (B1 & B2 & B3 & B4). pose proof (pt_lt_neq _ _ Ws) as Ns. pose proof (pt_lt_neq _ _ Wt) as Nt.
  assert (X : cross3 (sa s) (sb s) (sa t) = 0) by (apply (line3 (sa t) (sb t)); auto using cr0).
  assert (Y : cross3 (sa s) (sb s) (sb t) = 0) by (apply (line3 (sa t) (sb t)); auto using cr1).
  split; [apply (line3 (sa s) (sb s)); auto|]. split; [apply (line3 (sa s) (sb s)); auto|].
  split; eapply nlt_trans; eauto.
Qed.
Lemma cut_sub a b x : strictly_between a b x ->
  a <> b /\ a <> x /\ x <> b /\ up (a, x) = up (a, b) /\ up (x, b) = up (a, b) /\ sub_of (nrm (a, b)) (nrm (a, x)) /\ sub_of (nrm (a, b)) (nrm (x, b)).
Proof.
  intros (Z0 & B). assert (N : a <> b /\ a <> x /\ x <> b).
  { destruct B as [[L M]|[L M]]; pose proof (pt_lt_neq _ _ L); pose proof (pt_lt_neq _ _ M); pose proof (pt_lt_neq _ _ (pt_lt_trans _ _ _ L M)); repeat split; congruence. }
  destruct N as (N1 & N2 & N3). split; auto. split; auto. split; auto.
  destruct B as [[L M]|[L M]].
  - pose proof (pt_lt_trans _ _ _ L M) as K. assert (U : up (a, b) = true /\ up (a, x) = true /\ up (x, b) = true) by (unfold up; cbn [fst snd]; rewrite !pt_ltb_lt; auto).
    destruct U as (U1 & U2 & U3). rewrite U1, U2, U3. split; auto. split; auto. unfold nrm, sub_of. rewrite U1, U2, U3. cbn [fst snd sa sb].
    split; (split; [|split; [|split]]); auto using cr0, cr1, pt_lt_irrefl; intro Q; eapply pt_lt_irrefl; eapply pt_lt_trans; eauto.
  - pose proof (pt_lt_trans _ _ _ L M) as K.
    assert (G : forall p q, pt_lt q p -> pt_ltb p q = false) by (intros p q Q; apply pt_ltb_ge; intro Q'; eapply pt_lt_irrefl; eapply pt_lt_trans; eauto).
    assert (U : up (a, b) = false /\ up (a, x) = false /\ up (x, b) = false) by (unfold up; cbn [fst snd]; auto).
    destruct U as (U1 & U2 & U3). rewrite U1, U2, U3. split; auto. split; auto. unfold nrm, sub_of. rewrite U1, U2, U3. cbn [fst snd sa sb].
    assert (Z1 : cross3 b a x = 0) by (unfold cross3 in *; lia).
    split; (split; [|split; [|split]]); auto using cr0, cr1, pt_lt_irrefl; intro Q; eapply pt_lt_irrefl; eapply pt_lt_trans; eauto.
Qed.

Lemma srun_facts E l : srun E l -> fst E <> snd E -> forall e, In e l -> fst e <> snd e /\ up e = up E /\ sub_of (nrm E) (nrm e).
Proof.
  induction 1 as [|l1 a b x l2 H IH B]; intros N e I.
  - destruct I as [<-|[]]. split; auto. split; auto. apply sub_refl.
  - destruct (cut_sub a b x B) as (N1 & N2 & N3 & U1 & U2 & W1 & W2).
    destruct (IH N (a, b)) as (Nab & Uab & Wab); [apply in_or_app; right; left; auto|].
    pose proof (nrm_wf (a, b) Nab) as Wf. pose proof (nrm_wf E N) as WE.
    apply in_app_iff in I as [I|[<-|[<-|I]]].
    + apply (IH N e). apply in_or_app; auto.
    + split; auto. split; [congruence|]. apply (sub_trans _ (nrm (a, b))); auto.
    + split; auto. split; [congruence|]. apply (sub_trans _ (nrm (a, b))); auto.
    + apply (IH N e). apply in_or_app; right; right; auto.
Qed.
Lemma srun_degenerate E l : srun E l -> fst E = snd E -> l = [E].
Proof.
  induction 1 as [|l1 a b x l2 H IH B]; intro N; auto. specialize (IH N). destruct (cut_sub a b x B) as (N1 & _).
  destruct l1 as [|y [|? ?]]; cbn [app] in IH; try discriminate. injection IH as Y _. subst E. contradiction.
Qed.
Lemma srun_ne E l : srun E l -> (forall e, In e l -> fst e <> snd e) -> fst E <> snd E.
Proof. intros H N X. rewrite (srun_degenerate E l H X) in N. apply (N E); [left; auto|auto]. Qed.
Lemma cut_span a b x z : strictly_between a b x -> spans (nrm (a, b)) z = true -> spans (nrm (a, x)) z = true \/ spans (nrm (x, b)) z = true.
Proof.
  intros B H. destruct (cut_sub a b x B) as (_ & _ & _ & U1 & U2 & _). unfold nrm in *. rewrite U1, U2. destruct (up (a, b)); cbn [fst snd] in *; apply spans_iff in H; cbn [sa sb] in H; rewrite !spans_iff; cbn [sa sb];
    destruct (Qlt_le_dec z (qx x)); auto.
  - left. split; [apply H|auto].
  - right. split; [auto|apply H].
  - right. split; [apply H|auto].
  - left. split; [auto|apply H].
Qed.
Lemma srun_span E l z : srun E l -> spans (nrm E) z = true -> exists e, In e l /\ spans (nrm e) z = true.
Proof.
  induction 1 as [|l1 a b x l2 H IH B]; intro Sp; [exists E; split; [left|]; auto|].
  destruct (IH Sp) as (e & I & Se). apply in_app_iff in I as [I|[<-|I]].
  - exists e. split; auto. apply in_or_app; auto.
  - destruct (cut_span a b x z B Se) as [K|K]; [exists (a, x)|exists (x, b)]; split; auto; apply in_or_app; right; [left|right; left]; auto.
  - exists e. split; auto. apply in_or_app; right; right; right; auto.
Qed.
Lemma srun_start E l : srun E l -> exists e, In e l /\ sa (nrm e) = sa (nrm E).
Proof.
  induction 1 as [|l1 a b x l2 H IH B]; [exists E; split; [left|]; auto|].
  destruct IH as (e & I & Se). apply in_app_iff in I as [I|[<-|I]].
  - exists e. split; auto. apply in_or_app; auto.
  - destruct (cut_sub a b x B) as (_ & _ & _ & U1 & U2 & _). rewrite <- Se. unfold nrm. destruct (up (a, b)) eqn:U.
    + exists (a, x). split; [apply in_or_app; right; left; auto|]. rewrite U1. auto.
    + exists (x, b). split; [apply in_or_app; right; right; left; auto|]. rewrite U2. auto.
  - exists e. split; auto. apply in_or_app; right; right; right; auto.
Qed.
(** every point of the edge lies on one of the pieces; the inner cut points are ends of two pieces *)
Lemma srun_inner E l : srun E l -> fst E <> snd E -> forall e v, In e l -> v = fst e \/ v = snd e -> v <> fst E -> v <> snd E ->
  exists e1 e2, In e1 l /\ In e2 l /\ snd e1 = v /\ fst e2 = v.
Proof.
  intros H N.
  assert (G : (exists e, In e l /\ fst e = fst E) /\ forall e, In e l -> (fst e = fst E \/ exists e1, In e1 l /\ snd e1 = fst e) /\ (snd e = snd E \/ exists e2, In e2 l /\ fst e2 = snd e)).
  { clear N. induction H as [|l1 a b x l2 H [IH0 IH] B].
    - split; [exists E; split; [left|]; auto|]. intros e [<-|[]]. auto.
    - assert (In1 : forall e, In e (l1 ++ (a, x) :: (x, b) :: l2) -> e = (a, x) \/ e = (x, b) \/ In e (l1 ++ (a, b) :: l2)).
      { intros e I. apply in_app_iff in I as [I|[<-|[<-|I]]]; auto; right; right; apply in_or_app; [left|right; right]; auto. }
      assert (Out : forall e, In e (l1 ++ (a, b) :: l2) -> (exists e', In e' (l1 ++ (a, x) :: (x, b) :: l2) /\ fst e' = fst e) /\ (exists e', In e' (l1 ++ (a, x) :: (x, b) :: l2) /\ snd e' = snd e)).
      { intros e I. apply in_app_iff in I as [I|[<-|I]].
        - split; exists e; split; auto; apply in_or_app; auto.
        - split; [exists (a, x)|exists (x, b)]; split; auto; apply in_or_app; right; [left|right; left]; auto.
        - split; exists e; split; auto; apply in_or_app; right; right; right; auto. }
      split.
      + destruct IH0 as (e & I & Ee). destruct (Out e I) as [(e' & I' & Ee') _]. exists e'. split; auto. congruence.
      + assert (Iab : In (a, b) (l1 ++ (a, b) :: l2)) by (apply in_or_app; right; left; auto).
        assert (Lift : forall p, (p = fst E \/ exists e1, In e1 (l1 ++ (a, b) :: l2) /\ snd e1 = p) -> p = fst E \/ exists e1, In e1 (l1 ++ (a, x) :: (x, b) :: l2) /\ snd e1 = p).
        { intros p [P|(e1 & I1 & P)]; auto. right. destruct (Out e1 I1) as [_ (e' & I' & Ee')]. exists e'. split; auto. congruence. }
        assert (Lift' : forall p, (p = snd E \/ exists e1, In e1 (l1 ++ (a, b) :: l2) /\ fst e1 = p) -> p = snd E \/ exists e1, In e1 (l1 ++ (a, x) :: (x, b) :: l2) /\ fst e1 = p).
        { intros p [P|(e1 & I1 & P)]; auto. right. destruct (Out e1 I1) as [(e' & I' & Ee') _]. exists e'. split; auto. congruence. }
        intros e I. destruct (In1 e I) as [->|[->|J]]; cbn [fst snd].
        * split; [apply Lift; apply (IH (a, b) Iab)|]. right. exists (x, b). split; auto. apply in_or_app; right; right; left; auto.
        * split; [|apply Lift'; apply (IH (a, b) Iab)]. right. exists (a, x). split; auto. apply in_or_app; right; left; auto.
        * split; [apply Lift|apply Lift']; apply (IH e J). }
  destruct G as [_ G]. intros e v I Hv N1 N2. destruct (G e I) as [G1 G2]. destruct Hv as [->| ->].
  - destruct G1 as [X|(e1 & I1 & X)]; [contradiction|]. exists e1, e. auto.
  - destruct G2 as [X|(e2 & I2 & X)]; [contradiction|]. exists e, e2. auto.
Qed.

(** ** a thinned contour: its edges and the edges each was made of *)
Lemma edges_cons2 a b l : edges (a :: b :: l) = (a, b) :: combine (b :: l) (l ++ [a]).
Proof. reflexivity. Qed.
Lemma edges_start p l : Permutation (edges (p :: l)) (edges (l ++ [p])).
Proof.
  destruct l as [|q l]; auto. unfold edges at 2. cbn [app]. rewrite edges_cons2. 
  assert (K : forall (l : list pt) q z, combine (q :: l ++ [p]) ((l ++ [p]) ++ [z]) = combine (q :: l) (l ++ [p]) ++ [(p, z)]).
  { clear. induction l as [|r l IH]; intros q z; [reflexivity|]. cbn [app combine]. f_equal. apply IH. }
  rewrite K. apply Permutation_cons_append.
Qed.
Lemma thinned_runs c' c : thinned c' c -> exists L : list ((pt * pt) * list (pt * pt)), map fst L = edges c' /\
  Permutation (concat (map snd L)) (edges c) /\ Forall (fun x => srun (fst x) (snd x)) L.
Proof.
  induction 1 as [|p l H (L & E & Pm & F)|a b x l H (L & E & Pm & F) B].
  - exists (map (fun e => (e, [e])) (edges c')). split; [rewrite map_map; apply map_id|]. split.
    + rewrite map_map. cbn [snd]. induction (edges c') as [|e l IH]; auto. cbn [map concat app]. constructor; auto.
    + apply Forall_forall. intros y I. apply in_map_iff in I as (e & <- & _). constructor.
  - exists L. split; auto. split; auto. rewrite Pm. apply edges_start.
  - rewrite edges_cons2 in Pm.
    assert (I : In (a, b) (concat (map snd L))) by (apply (Permutation_in _ (Permutation_sym Pm)); left; auto).
    apply in_concat in I as (r & Ir & I). apply in_map_iff in Ir as ([E0 r0] & Er & I0). cbn [snd] in Er. subst r0.
    apply in_split in I0 as (L1 & L2 & ->). apply in_split in I as (r1 & r2 & ->).
    exists (L1 ++ (E0, r1 ++ (a, x) :: (x, b) :: r2) :: L2). split; [|split].
    + rewrite map_app in *. exact E.
    + rewrite map_app, concat_app in *. cbn [map concat snd] in *. rewrite <- app_assoc in *. cbn [app] in *.
      change (edges (a :: x :: b :: l)) with ((a, x) :: (x, b) :: combine (b :: l) (l ++ [a])).
      set (A := concat (map snd L1)) in *. set (D := concat (map snd L2)) in *.
      assert (P0 : Permutation (A ++ r1 ++ r2 ++ D) (combine (b :: l) (l ++ [a]))).
      { apply Permutation_cons_inv with (a := (a, b)). rewrite <- Pm. rewrite (app_assoc A r1 (r2 ++ D)), (app_assoc A r1 ((a, b) :: r2 ++ D)). apply Permutation_middle. }
      rewrite <- P0. rewrite (app_assoc A r1 (r2 ++ D)), (app_assoc A r1 (_ :: _ :: r2 ++ D)).
      rewrite <- Permutation_middle. constructor. rewrite <- Permutation_middle. reflexivity.
    + apply Forall_app in F as [F1 F2]. inversion F2 as [|? ? S0 F3]; subst. apply Forall_app. split; auto. constructor; auto. cbn [fst snd] in *. constructor; auto.
Qed.

(** ** heights *)
Open Scope Q_scope.
Lemma sub_x t s : sub_of t s -> qx (sa t) <= qx (sa s) /\ qx (sb s) <= qx (sb t).
Proof.
  intros (_ & _ & A & B). unfold pt_lt in *. split; apply qz_le; lia.
Qed.
Lemma sub_nonvert t s : sub_of t s -> nonvert s -> nonvert t.
Proof. intros W N. destruct (sub_x t s W). unfold nonvert in *. lra. Qed.
Lemma sub_spans t s z : sub_of t s -> spans s z = true -> spans t z = true.
Proof. intros W N. destruct (sub_x t s W). apply spans_iff in N. apply spans_iff. lra. Qed.
Lemma on_line s p : nonvert s -> (cross3 (sa s) (sb s) p = 0)%Z -> qy p == height s (qx p).
Proof.
  intros N C. rewrite height_slope. unfold slope. unfold nonvert in N.
  assert (K : (qy p - qy (sa s)) * (qx (sb s) - qx (sa s)) == (qy (sb s) - qy (sa s)) * (qx p - qx (sa s))).
  { unfold qx, qy, cross3 in *. unfold Qminus. rewrite <- !inject_Z_opp, <- !inject_Z_plus, <- !inject_Z_mult. apply inject_Z_injective. lia. }
  assert (D : ~ qx (sb s) - qx (sa s) == 0) by lra.
  assert (X : qy p - qy (sa s) == (qy (sb s) - qy (sa s)) / (qx (sb s) - qx (sa s)) * (qx p - qx (sa s))).
  { apply (Qmult_inj_r _ _ _ D). rewrite K. field. auto. }
  rewrite <- X. ring.
Qed.
Lemma sub_height t s : sub_of t s -> nonvert s -> forall z, height s z == height t z.
Proof.
  intros W N z. pose proof (sub_nonvert t s W N) as Nt. destruct W as (A & B & _). unfold nonvert in *. apply height_same_line; try lra; apply on_line; auto.
Qed.
Lemma sub_slope t s : sub_of t s -> nonvert s -> slope s == slope t.
Proof.
  intros W N. pose proof (sub_height t s W N 0) as H0. pose proof (sub_height t s W N 1) as H1. 
  pose proof (height_affine s 0 1). pose proof (height_affine t 0 1). lra.
Qed.
Lemma sub_lt t s t' s' z : sub_of t s -> nonvert s -> sub_of t' s' -> nonvert s' -> (lt_at z s s' <-> lt_at z t t').
Proof.
  intros W N W' N'. unfold lt_at. rewrite (sub_height t s W N), (sub_height t' s' W' N'), (sub_slope t s W N), (sub_slope t' s' W' N'). tauto.
Qed.
Open Scope Z_scope.
(** two segments inside of one, from its start on *)
Lemma sub_vec t s : pt_lt (sa s) (sb s) -> pt_lt (sa t) (sb t) -> sub_of t s ->
  exists m n, 0 < m /\ 0 < n /\ m * (px (sb s) - px (sa s)) = n * (px (sb t) - px (sa t)) /\ m * (py (sb s) - py (sa s)) = n * (py (sb t) - py (sa t)).
Proof.
  intros Ls Lt (A & B & _). unfold cross3, pt_lt in *. destruct (Z.eq_dec (px (sa t)) (px (sb t))) as [E|E].
  - exists (py (sb t) - py (sa t)), (py (sb s) - py (sa s)).
    assert (P1 : 0 < py (sb t) - py (sa t)) by lia.
    assert (X1 : px (sa s) = px (sa t)) by nia. assert (X2 : px (sb s) = px (sa t)) by nia. split; [lia|]. split; [lia|]. split; nia.
  - assert (P1 : 0 < px (sb t) - px (sa t)) by lia. exists (px (sb t) - px (sa t)), (px (sb s) - px (sa s)).
    assert (X : px (sb s) <> px (sa s)).
    { intro X. assert (Y : (px (sb t) - px (sa t)) * (py (sb s) - py (sa s)) = 0) by nia. nia. }
    split; [lia|]. split; [lia|]. split; nia.
Qed.
(** ** points *)
Lemma on_int t p : pt_lt (sa t) (sb t) -> cross3 (sa t) (sb t) p = 0 -> ~ pt_lt p (sa t) -> ~ pt_lt (sb t) p -> on_seg t (qx p, qy p).
Proof.
  intros W Cr A B. destruct (Z.eq_dec (px (sa t)) (px (sb t))) as [E|E].
  - assert (P1 : 0 < py (sb t) - py (sa t)) by (unfold pt_lt in W; lia). assert (Px : px p = px (sa t)) by (unfold cross3 in Cr; rewrite <- E in Cr; nia).
    apply on_seg_vert; auto; unfold pt_lt, qx, qy in *; [rewrite Px; reflexivity|apply qz_lt; lia|apply qz_le; lia|apply qz_le; lia].
  - assert (N : nonvert t) by (unfold nonvert; apply qz_lt; unfold pt_lt in W; lia).
    assert (H : on_seg t (qx p, height t (qx p))) by (apply on_seg_height; auto; apply qz_le; unfold pt_lt in *; lia).
    pose proof (on_line t p N Cr) as Y. destruct H as (k & K & X1 & X2). exists k. split; auto. split; auto. cbn [fst snd] in *. rewrite Y. auto.
Qed.
Lemma sub_end t s : pt_lt (sa s) (sb s) -> pt_lt (sa t) (sb t) -> sub_of t s -> on_seg t (qx (sa s), qy (sa s)) /\ on_seg t (qx (sb s), qy (sb s)).
Proof.
  intros Ws Wt (A & B & C & D). split; apply on_int; auto; eapply nlt_trans; eauto; unfold pt_lt in *; lia.
Qed.
Lemma cut_on a b x q : strictly_between a b x -> on_seg (nrm (a, b)) q -> on_seg (nrm (a, x)) q \/ on_seg (nrm (x, b)) q.
Proof.
  intros B H. pose proof (cut_sub a b x B) as (N1 & N2 & N3 & U1 & U2 & W1 & W2).
  pose proof (nrm_wf (a, b) N1) as Wf. pose proof (nrm_wf (a, x) N2) as Wf1. pose proof (nrm_wf (x, b) N3) as Wf2.
  destruct (Z.eq_dec (px a) (px b)) as [E|E].
  - assert (Ex : px x = px a).
    { destruct B as [C L]. unfold cross3, pt_lt in *. destruct L; lia. }
    destruct (Qlt_le_dec (snd q) (qy x)) as [L|L]; unfold nrm in *; rewrite U1, U2 in *; destruct (up (a, b)); cbn [fst snd sa sb] in *;
      (apply on_seg_vert_inv in H; [|cbn [sa sb]; auto|cbn [sa sb]; apply qz_lt; unfold pt_lt in Wf; lia]); cbn [sa sb] in H; destruct H as (H1 & H2 & H3).
    + left; destruct q as [q1 q2]; cbn [fst snd] in *; apply on_seg_vert; cbn [sa sb]; [congruence|unfold qx in *; rewrite ?Ex, ?E in *; auto|apply qz_lt; unfold pt_lt in *; lia|lra|lra].
    + right; destruct q as [q1 q2]; cbn [fst snd] in *; apply on_seg_vert; cbn [sa sb]; [congruence|unfold qx in *; rewrite ?Ex, ?E in *; auto|apply qz_lt; unfold pt_lt in *; lia|lra|lra].
    + right; destruct q as [q1 q2]; cbn [fst snd] in *; apply on_seg_vert; cbn [sa sb]; [congruence|unfold qx in *; rewrite ?Ex, ?E in *; auto|apply qz_lt; unfold pt_lt in *; lia|lra|lra].
    + left; destruct q as [q1 q2]; cbn [fst snd] in *; apply on_seg_vert; cbn [sa sb]; [congruence|unfold qx in *; rewrite ?Ex, ?E in *; auto|apply qz_lt; unfold pt_lt in *; lia|lra|lra].
  - assert (N : nonvert (nrm (a, b))) by (unfold nonvert; apply qz_lt; unfold nrm, pt_lt in *; destruct (up (a, b)); cbn [fst snd sa sb] in *; lia).
    apply on_seg_nonvert in H as (H1 & H2 & H3); auto.
    assert (Hx : px x <> px a /\ px x <> px b).
    { destruct B as [C _]. unfold cross3 in C. split; intro K; [apply N2|apply N3]; destruct a as [a1 a2], b as [b1 b2], x as [x1 x2]; cbn [px py] in *; f_equal; nia. }
    assert (Go : forall s, sub_of (nrm (a, b)) s -> nonvert s -> (qx (sa s) <= fst q)%Q -> (fst q <= qx (sb s))%Q -> on_seg s q).
    { intros s W Ns G1 G2. destruct q as [q1 q2]. cbn [fst snd] in *. pose proof (on_seg_height s q1 Ns G1 G2) as (k & K & X1 & X2). exists k. split; auto. split; auto. cbn [fst snd] in *. rewrite H3, <- (sub_height _ _ W Ns). auto. }
    assert (Nv1 : nonvert (nrm (a, x))) by (unfold nonvert; apply qz_lt; unfold nrm, pt_lt in *; rewrite U1 in *; destruct (up (a, b)); cbn [fst snd sa sb] in *; lia).
    assert (Nv2 : nonvert (nrm (x, b))) by (unfold nonvert; apply qz_lt; unfold nrm, pt_lt in *; rewrite U2 in *; destruct (up (a, b)); cbn [fst snd sa sb] in *; lia).
    pose proof (Go _ W1 Nv1) as G1. pose proof (Go _ W2 Nv2) as G2. unfold nrm in *. rewrite U1, U2 in *. destruct (up (a, b)); cbn [fst snd sa sb] in *; destruct (Qlt_le_dec (fst q) (qx x)).
    + left. apply G1; lra.
    + right. apply G2; lra.
    + right. apply G2; lra.
    + left. apply G1; lra.
Qed.
Lemma srun_on E l q : srun E l -> on_seg (nrm E) q -> exists e, In e l /\ on_seg (nrm e) q.
Proof.
  induction 1 as [|l1 a b x l2 H IH B]; intro Sp; [exists E; split; [left|]; auto|].
  destruct (IH Sp) as (e & I & Se). apply in_app_iff in I as [I|[<-|I]].
  - exists e. split; auto. apply in_or_app; auto.
  - destruct (cut_on a b x q B Se) as [K|K]; [exists (a, x)|exists (x, b)]; split; auto; apply in_or_app; right; [left|right; left]; auto.
  - exists e. split; auto. apply in_or_app; right; right; right; auto.
Qed.

(** ** contours that do not turn back, and dropping points of them *)
(** Wherever three neighbours lie on a line, the middle one lies between the other two. *)
Fixpoint fwd (l : list pt) : Prop := match l with a :: ((b :: d :: _) as r) => (cross3 a b d = 0 -> strictly_between a d b) /\ fwd r | _ => True end.
Definition goes_on (c : list pt) : Prop := match c with p0 :: p1 :: _ => fwd (c ++ [p0; p1]) | _ => True end.
Lemma fwd_nth l : (forall i a b d, nth_error l i = Some a -> nth_error l (S i) = Some b -> nth_error l (S (S i)) = Some d -> cross3 a b d = 0 -> strictly_between a d b) -> fwd l.
Proof.
  induction l as [|a [|b [|d l]] IH]; intro H; try exact I. change ((cross3 a b d = 0 -> strictly_between a d b) /\ fwd (b :: d :: l)). split; [exact (H 0%nat a b d eq_refl eq_refl eq_refl)|].
  apply IH. intros i x y z H1 H2 H3. apply (H (S i) x y z); auto.
Qed.
Lemma fwd_app_l l m : fwd (l ++ m) -> fwd l.
Proof.
  induction l as [|a [|b [|d l]] IH]; intro H; try exact I. change ((cross3 a b d = 0 -> strictly_between a d b) /\ fwd (b :: d :: l)).
  change ((cross3 a b d = 0 -> strictly_between a d b) /\ fwd ((b :: d :: l) ++ m)) in H. destruct H as [H1 H2]. split; auto.
Qed.
Lemma thinned_rot c' l m : thinned c' (l ++ m) -> thinned c' (m ++ l).
Proof.
  revert m. induction l as [|a l IH]; intros m H; [rewrite app_nil_r; exact H|].
  apply T_start in H. rewrite <- app_assoc in H. apply IH in H. rewrite <- app_assoc in H. exact H.
Qed.
Lemma thinned_ins c' l a b x m : thinned c' (l ++ a :: b :: m) -> strictly_between a b x -> thinned c' (l ++ a :: x :: b :: m).
Proof.
  intros H B. apply thinned_rot in H. cbn [app] in H. pose proof (T_point _ _ _ _ _ H B) as K. change (thinned c' ((a :: x :: b :: m) ++ l)) in K. apply thinned_rot in K. exact K.
Qed.
Lemma between_on a b d e : strictly_between a d b -> (cross3 b d e = 0 -> strictly_between b e d) -> cross3 a d e = 0 -> strictly_between a e d.
Proof.
  intros [Z1 B1] H Z2. assert (N : a <> d) by (destruct B1 as [[L M]|[L M]]; pose proof (pt_lt_neq _ _ (pt_lt_trans _ _ _ L M)); congruence).
  assert (Z3 : cross3 b d e = 0) by (apply (line3 a d); auto using cr1). destruct (H Z3) as [Z4 B2].
  split; [unfold cross3 in *; lia|]. destruct B1 as [[L M]|[L M]], B2 as [[L' M']|[L' M']].
  - left. split; auto. eapply pt_lt_trans; eauto.
  - exfalso. eapply pt_lt_irrefl. eapply pt_lt_trans; [exact M|exact M'].
  - exfalso. eapply pt_lt_irrefl. eapply pt_lt_trans; [exact L|exact L'].
  - right. split; auto. eapply pt_lt_trans; eauto.
Qed.
Lemma thinned_wind c' c q : thinned c' c -> contour_wind c' q = contour_wind c q.
Proof.
  induction 1 as [|p l H IH|a b x l H IH B]; auto.
  - rewrite IH. unfold contour_wind. apply zsum_perm. apply edges_start.
  - rewrite IH. unfold contour_wind. rewrite !edges_cons2. cbn [app combine]. rewrite !zsum_cons. destruct B as [Z0 _].
    assert (E : cross3 a x b = 0) by (unfold cross3 in *; lia). pose proof (edge_wind_collinear q a x b E). lia.
Qed.
