(** * Rotating around a vertex: which direction is met first. *)
From Verif Require Import Base Spec ModelGraph ModelExtract.
Open Scope Z_scope.

(** ** Directions as integer vectors *)
Definition vec : Type := (Z * Z)%type.
Definition vx (u w : vec) : Z := fst u * snd w - snd u * fst w.
Definition dot (u w : vec) : Z := fst u * fst w + snd u * snd w.
Definition vsub (p c : pt) : vec := (px p - px c, py p - py c).
Lemma vcross_vx c p q : vcross c p q = vx (vsub p c) (vsub q c).
Proof. reflexivity. Qed.

(** the rays of two non-zero vectors coincide *)
Definition same_ray (u w : vec) : Prop := vx u w = 0 /\ 0 < dot u w.
(** Rotating counter-clockwise from the ray of [a] up to the ray of [b] (not the same ray),
    the ray of [p] is met strictly in between.  The sector is convex if [0 < vx a b], a half
    plane if [vx a b = 0], otherwise it is the complement of the convex sector from [b] to [a]. *)
Definition ccw_between (a p b : vec) : Prop :=
  if 0 <? vx a b then 0 < vx a p /\ 0 < vx p b
  else if vx a b =? 0 then 0 < vx a p
  else 0 < vx a p \/ 0 < vx p b.
(** the same, rotating clockwise if [cw] *)
Definition between (cw : bool) (a p b : vec) : Prop := if cw then ccw_between b p a else ccw_between a p b.

Lemma vx_anti u w : vx u w = - vx w u.
Proof. unfold vx. ring. Qed.
Lemma plucker a p q r : vx a q * vx p r = vx a p * vx q r + vx a r * vx p q.
Proof. unfold vx. ring. Qed.
Lemma dot_pos a : a <> (0, 0) -> 0 < dot a a.
Proof. destruct a as [a1 a2]. unfold dot; simpl. intro N. destruct (Z.eq_dec a1 0), (Z.eq_dec a2 0); [exfalso; apply N; congruence|nia|nia|nia]. Qed.
Lemma opp_ray a p : vx a p = 0 -> dot a p <= 0 -> a <> (0, 0) -> p <> (0, 0) ->
  exists m n, 0 < m /\ 0 < n /\ m * fst p = - n * fst a /\ m * snd p = - n * snd a.
Proof.
  intros H D Na Np. exists (dot a a), (- dot a p). pose proof (dot_pos a Na) as Ha. pose proof (dot_pos p Np) as Hp.
  destruct a as [a1 a2], p as [p1 p2]. unfold vx, dot in *. simpl in *.
  assert (Dn : a1 * p1 + a2 * p2 <> 0).
  { intro E. assert (X : (a1 * a1 + a2 * a2) * (p1 * p1 + p2 * p2) = (a1 * p1 + a2 * p2) * (a1 * p1 + a2 * p2) + (a1 * p2 - a2 * p1) * (a1 * p2 - a2 * p1)) by ring.
    rewrite E, H in X. nia. }
  split; auto. split; [lia|].
  assert (E1 : (a1 * a1 + a2 * a2) * p1 = (a1 * p1 + a2 * p2) * a1 - a2 * (a1 * p2 - a2 * p1)) by ring.
  assert (E2 : (a1 * a1 + a2 * a2) * p2 = (a1 * p1 + a2 * p2) * a2 + a1 * (a1 * p2 - a2 * p1)) by ring.
  rewrite H in E1, E2. lia.
Qed.
Lemma opp_vx m n a p w : m * fst p = - n * fst a -> m * snd p = - n * snd a -> m * vx p w = - n * vx a w.
Proof. unfold vx. intros A B. replace (m * (fst p * snd w - snd p * fst w)) with ((m * fst p) * snd w - (m * snd p) * fst w) by ring. rewrite A, B. ring. Qed.

Lemma not_same a p : ~ same_ray a p -> vx a p = 0 -> dot a p <= 0.
Proof. unfold same_ray. intros N H. destruct (Z_lt_le_dec 0 (dot a p)); auto. tauto. Qed.

(** ** the selection of [core/nearest_vector.rs] on vectors *)
Section Select.
  Variable s : Z.          (** 1: clockwise, -1: counter-clockwise *)
  Hypothesis Hs : s = 1 \/ s = -1.
  Variable a : vec.
  Hypothesis Na : a <> (0, 0).
  Definition more (p : vec) : bool := 0 <=? vx a p * s.
  (** [b] is met strictly before [p] *)
  Definition before (b p : vec) : Prop := (more b = false /\ more p = true) \/ (more b = more p /\ vx b p * s < 0).
  Definition okv (p : vec) : Prop := p <> (0, 0) /\ ~ same_ray a p.

  Lemma before_trans p q r : okv p -> okv q -> okv r -> before p q -> before q r -> before p r.
  Proof.
    intros [Np Sp] [Nq Sq] [Nr Sr] [[A B]|[A B]] [[C D]|[C D]].
    - congruence.
    - left. split; congruence.
    - left. split; congruence.
    - right. split; [congruence|].
      assert (Op : forall p, p <> (0,0) -> ~ same_ray a p -> vx a p = 0 -> forall w, more w = true -> vx w p * s >= 0).
      { intros p' N' S' E' w M'. destruct (opp_ray a p' E' (not_same _ _ S' E') Na N') as (m & n & Hm & Hn & F1 & F2).
        pose proof (opp_vx _ _ _ _ w F1 F2) as F. rewrite (vx_anti w p'). unfold more in M'. apply Z.leb_le in M'. nia. }
      pose proof (plucker a p q r) as P. unfold more in *.
      assert (Sg : (0 <= vx a p * s /\ 0 <= vx a q * s /\ 0 <= vx a r * s) \/ (vx a p * s < 0 /\ vx a q * s < 0 /\ vx a r * s < 0)).
      { destruct (0 <=? vx a p * s) eqn:E1, (0 <=? vx a q * s) eqn:E2, (0 <=? vx a r * s) eqn:E3; try discriminate;
          rewrite ?Z.leb_le, ?Z.leb_gt in *; lia. }
      assert (Q0 : vx a q <> 0). { intro E. specialize (Op q Nq Sq E p). unfold more in Op. rewrite Z.leb_le in Op. destruct Sg as [Sg|Sg]; [|nia]. specialize (Op ltac:(lia)). lia. }
      assert (R0 : vx a r <> 0). { intro E. specialize (Op r Nr Sr E q). unfold more in Op. rewrite Z.leb_le in Op. destruct Sg as [Sg|Sg]; [|nia]. specialize (Op ltac:(lia)). lia. }
      destruct Hs as [-> | ->]; destruct Sg as [(S1 & S2 & S3)|(S1 & S2 & S3)]; nia.
  Qed.
  Lemma more_false_nz p : more p = false -> vx a p <> 0.
  Proof. unfold more. rewrite Z.leb_gt. intros H E. rewrite E in H. lia. Qed.
  Lemma before_total p q : okv p -> okv q -> ~ same_ray p q -> before p q \/ before q p.
  Proof.
    intros [Np Sp] [Nq Sq] N. unfold before. destruct (more p) eqn:E1, (more q) eqn:E2; auto.
    all: destruct (Z.lt_trichotomy (vx p q * s) 0) as [L|[L|L]]; [left; right; split; auto| |right; right; split; auto; rewrite (vx_anti q p); lia].
    all: exfalso; assert (L' : vx p q = 0) by (destruct Hs; nia).
    all: destruct (opp_ray p q L' (not_same _ _ N L') Np Nq) as (m & n & Hm & Hn & F1 & F2); pose proof (opp_vx _ _ _ _ a F1 F2) as F;
      rewrite (vx_anti q a), (vx_anti p a) in F.
    - unfold more in *. apply Z.leb_le in E1, E2.
      assert (vx a p = 0 /\ vx a q = 0) as [Z1 Z2] by (destruct Hs as [-> | ->]; nia).
      destruct (opp_ray a p Z1 (not_same _ _ Sp Z1) Na Np) as (m1 & n1 & Hm1 & Hn1 & A1 & A2).
      destruct (opp_ray a q Z2 (not_same _ _ Sq Z2) Na Nq) as (m2 & n2 & Hm2 & Hn2 & B1 & B2).
      pose proof (dot_pos a Na) as Da. apply N. split; auto.
      assert (E : (m1 * m2) * dot p q = (n1 * n2) * dot a a).
      { unfold dot. replace ((m1 * m2) * (fst p * fst q + snd p * snd q)) with ((m1 * fst p) * (m2 * fst q) + (m1 * snd p) * (m2 * snd q)) by ring.
        rewrite A1, A2, B1, B2. ring. }
      assert (0 < m1 * m2) by nia. assert (0 < n1 * n2) by nia. nia.
    - unfold more in *. apply Z.leb_gt in E1, E2. destruct Hs as [-> | ->]; nia.
  Qed.
  Lemma before_irrefl p : ~ before p p.
  Proof. unfold before. intros [[A B]|[_ B]]; [congruence|]. unfold vx in B. lia. Qed.
  Lemma before_asym p q : before p q -> ~ before q p.
  Proof. unfold before. rewrite (vx_anti q p). intros [[A B]|[A B]] [[C D]|[C D]]; try congruence. lia. Qed.

  (** the geometric meaning *)
  Lemma before_between b p : okv b -> okv p -> ~ same_ray b p -> (before b p <-> between (s =? 1) a b p).
  Proof.
    intros Ob Op N.
    assert (Hab : forall b p, okv b -> okv p -> vx a b = 0 -> vx a p <> 0 -> (0 < vx p b <-> 0 < vx a p) /\ (vx p b < 0 <-> vx a p < 0)).
    { intros b' p' [Nb Sb] [Np Sp] Z1 Z2. destruct (opp_ray a b' Z1 (not_same _ _ Sb Z1) Na Nb) as (m & n & Hm & Hn & F1 & F2).
      pose proof (opp_vx _ _ _ _ p' F1 F2) as F. rewrite (vx_anti b' p') in F. split; nia. }
    pose proof (Hab b p Ob Op) as H1. pose proof (Hab p b Op Ob) as H2. clear Hab.
    assert (H3 : vx a b = 0 -> vx a p = 0 -> False).
    { intros Z1 Z2. destruct (before_total b p Ob Op N) as [[[A _]|[_ B]]|[[A _]|[_ B]]]; try (apply more_false_nz in A; lia).
      - destruct Ob as [Nb Sb], Op as [Np Sp].
        destruct (opp_ray a b Z1 (not_same _ _ Sb Z1) Na Nb) as (m & n & Hm & Hn & F1 & F2).
        pose proof (opp_vx _ _ _ _ p F1 F2) as F. rewrite Z2 in F. destruct Hs as [-> | ->]; nia.
      - destruct Ob as [Nb Sb], Op as [Np Sp].
        destruct (opp_ray a p Z2 (not_same _ _ Sp Z2) Na Np) as (m & n & Hm & Hn & F1 & F2).
        pose proof (opp_vx _ _ _ _ b F1 F2) as F. rewrite Z1 in F. destruct Hs as [-> | ->]; nia. }
    assert (B : before b p <-> (vx a b * s < 0 /\ 0 <= vx a p * s) \/ ((vx a b * s < 0 <-> vx a p * s < 0) /\ vx b p * s < 0)).
    { unfold before, more. destruct (Z.leb_spec 0 (vx a b * s)), (Z.leb_spec 0 (vx a p * s)); split; intros [[? ?]|[? ?]]; try discriminate; try lia; auto. }
    rewrite B. clear B. unfold between, ccw_between. rewrite (vx_anti p a), (vx_anti b a), (vx_anti b p) in *.
    generalize dependent (vx a b). generalize dependent (vx a p). generalize dependent (vx p b). intros PB AP AB H1 H2 H3.
    destruct Hs as [-> | ->]; simpl.
    - destruct (Z.ltb_spec 0 (- AP)); [lia|]. destruct (Z.eqb_spec (- AP) 0); lia.
    - destruct (Z.ltb_spec 0 AP); [lia|]. destruct (Z.eqb_spec AP 0); lia.
  Qed.
End Select.

(** ** [NearestVector]: the best candidate is met before all others *)
Lemma rf_cases cw : rf cw = 1 \/ rf cw = -1.
Proof. destruct cw; auto. Qed.
Lemma nv_new_more c a b id cw : nv_new c a b id cw = NV c a b (more (rf cw) (vsub a c) (vsub b c)) id cw.
Proof.
  unfold nv_new, more. f_equal. rewrite vcross_vx. destruct cw; simpl.
  - rewrite Z.mul_1_r. auto.
  - generalize (vx (vsub a c) (vsub b c)). intro z. destruct (Z.leb_spec z 0), (Z.leb_spec 0 (z * -1)); lia.
Qed.
Lemma nv_add_more c a b id cw p i : exists b' id',
  nv_add (NV c a b (more (rf cw) (vsub a c) (vsub b c)) id cw) p i = NV c a b' (more (rf cw) (vsub a c) (vsub b' c)) id' cw /\
  ((b' = b /\ id' = id /\ ~ before (rf cw) (vsub a c) (vsub p c) (vsub b c)) \/
   (b' = p /\ id' = i /\ before (rf cw) (vsub a c) (vsub p c) (vsub b c))).
Proof.
  unfold nv_add, before. simpl. rewrite !vcross_vx. fold (more (rf cw) (vsub a c) (vsub p c)).
  destruct (more (rf cw) (vsub a c) (vsub p c)) eqn:Ep, (more (rf cw) (vsub a c) (vsub b c)) eqn:Eb; simpl.
  - destruct (Z.ltb_spec (vx (vsub p c) (vsub b c) * rf cw) 0).
    + exists p, i. rewrite Ep. split; [reflexivity|]. right. split; [reflexivity|]. split; [reflexivity|]. auto.
    + exists b, id. rewrite Eb. split; auto. left. repeat split; auto. intros [[? ?]|[? ?]]; [discriminate|lia].
  - exists b, id. rewrite Eb. split; auto. left. repeat split; auto. intros [[? ?]|[? ?]]; congruence.
  - exists p, i. rewrite Ep. split; [reflexivity|]. right. split; [reflexivity|]. split; [reflexivity|]. auto.
  - destruct (Z.ltb_spec (vx (vsub p c) (vsub b c) * rf cw) 0).
    + exists p, i. rewrite Ep. split; [reflexivity|]. right. split; [reflexivity|]. split; [reflexivity|]. auto.
    + exists b, id. rewrite Eb. split; auto. left. repeat split; auto. intros [[? ?]|[? ?]]; [discriminate|lia].
Qed.

Section Pick.
  Variable g : graph.
  Variable node_id : nat.
  Variable c a : pt.
  Variable cw : bool.
  Hypothesis Na : vsub a c <> (0, 0).
  (** direction of link [i] seen from the vertex [c] *)
  Definition dirn (i : nat) : vec :=
    match nth_error (g_links g) i with Some l => vsub (l_other l node_id) c | None => (0, 0) end.
  Variable D : nat -> Prop.
  Hypothesis Dok : forall i, D i -> (exists l, nth_error (g_links g) i = Some l) /\ okv (vsub a c) (dirn i).
  Hypothesis Dsep : forall i j, D i -> D j -> i <> j -> ~ same_ray (dirn i) (dirn j).

  Lemma nearest_loop_first ids : forall id b, Forall D ids -> D id -> ~ In id ids -> NoDup ids -> vsub b c = dirn id ->
    exists v, nearest_loop g node_id ids (NV c a b (more (rf cw) (vsub a c) (vsub b c)) id cw) = Some v /\
      (nv_best v = id \/ In (nv_best v) ids) /\
      forall j, j = id \/ In j ids -> j <> nv_best v -> before (rf cw) (vsub a c) (dirn (nv_best v)) (dirn j).
  Proof.
    induction ids as [|i ids IH]; intros id b F Did NI ND Eb; simpl.
    - eexists. split; [reflexivity|]. simpl. split; auto. intros j [->|[]] N. congruence.
    - inversion F as [|? ? Di F']; subst. inversion ND as [|? ? Ni ND']; subst.
      destruct (Dok i Di) as ((l & Hl) & Oi). rewrite Hl.
      assert (Ei : vsub (l_other l node_id) c = dirn i) by (unfold dirn; rewrite Hl; auto).
      destruct (nv_add_more c a b id cw (l_other l node_id) i) as (b' & id' & -> & Cs).
      rewrite Ei, Eb in Cs. assert (Nii : i <> id) by (intros ->; apply NI; left; auto).
      pose proof (proj2 (Dok id Did)) as Oid.
      destruct Cs as [(-> & -> & NB)|(-> & -> & BF)].
      + destruct (IH id b F' Did (fun H => NI (or_intror H)) ND' Eb) as (v & E & B & Fi).
        exists v. split; auto. split; [tauto|]. intros j [->|[->|I]] N; auto.
        destruct (before_total (rf cw) (rf_cases cw) (vsub a c) Na (dirn j) (dirn id) Oi Oid (Dsep _ _ Di Did Nii)) as [?|BF]; [contradiction|].
        destruct B as [B|B]; [rewrite B; auto|].
        assert (Nb : nv_best v <> id) by (intro X; rewrite X in B; apply NI; right; auto).
        assert (Db : D (nv_best v)) by (rewrite Forall_forall in F'; auto).
        eapply before_trans; [apply rf_cases|exact Na|apply Dok; exact Db|exact Oid|exact Oi|apply Fi; auto|exact BF].
      + destruct (IH i (l_other l node_id) F' Di Ni ND' Ei) as (v & E & B & Fi).
        exists v. split; auto. split; [destruct B as [->|B]; auto|]. intros j [->|[->|I]] N; auto.
        destruct B as [B|B]; [rewrite B; auto|].
        assert (Nb : nv_best v <> i) by (intro X; rewrite X in B; apply Ni; auto).
        assert (Db : D (nv_best v)) by (rewrite Forall_forall in F'; auto).
        eapply before_trans; [apply rf_cases|exact Na|apply Dok; exact Db|exact Oi|exact Oid|apply Fi; auto|exact BF].
  Qed.
End Pick.
