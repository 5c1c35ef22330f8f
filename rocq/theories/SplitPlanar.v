(** * Geometry of exact splitting: the pieces of segments split in all their common
    points meet only in common ends. *)
From Verif Require Import Base Spec QLib PlanarGeo ModelCross CrossProofs CrossPoint MarksProofs.
Open Scope Z_scope.

(** ** Lexicographic order of rational points *)
Definition qle (q r : qpt) : Prop := (fst q < fst r \/ (fst q == fst r /\ snd q <= snd r))%Q.
Definition qeq (q r : qpt) : Prop := (fst q == fst r /\ snd q == snd r)%Q.

Lemma qle_trans q r s : qle q r -> qle r s -> qle q s.
Proof. unfold qle. intros [H|[H H']] [K|[K K']]; (left; lra) || (right; split; lra). Qed.
Lemma qle_antisym q r : qle q r -> qle r q -> qeq q r.
Proof. unfold qle, qeq. intros [H|[H H']] [K|[K K']]; split; lra. Qed.
Lemma qle_total q r : qle q r \/ qle r q.
Proof.
  unfold qle. destruct (Qlt_le_dec (fst q) (fst r)) as [H|H]; auto.
  destruct (Qlt_le_dec (fst r) (fst q)) as [K|K]; auto.
  destruct (Qlt_le_dec (snd q) (snd r)) as [L|L]; [left|right]; right; split; lra.
Qed.
Lemma qle_refl q : qle q q.
Proof. right. split; lra. Qed.
Lemma qle_pt p r : qle (qof p) (qof r) <-> pt_leb p r = true.
Proof.
  unfold qle, qof, qx, qy; simpl. rewrite <- Zlt_Qlt, <- Zle_Qle.
  unfold pt_leb, pt_ltb, pt_eqb. split.
  - intros [H|[H K]]; [|apply (proj1 (qz_eq _ _)) in H]; lia.
  - intro H. destruct (Z_lt_dec (px p) (px r)); auto. right. split; [apply (proj2 (qz_eq _ _))|]; lia.
Qed.
Lemma qle_comp q q' r r' : qeq q q' -> qeq r r' -> qle q r -> qle q' r'.
Proof. unfold qeq, qle. intros [A B] [E F] [H|[H K]]; (left; lra) || (right; split; lra). Qed.
Lemma qeq_refl q : qeq q q. Proof. split; reflexivity. Qed.
Lemma qeq_sym q r : qeq q r -> qeq r q. Proof. intros [A B]; split; symmetry; auto. Qed.
Lemma q_is_qeq q p : q_is q p <-> qeq q (qof p).
Proof. unfold q_is, qeq, qof. simpl. tauto. Qed.

Lemma q_is_of_qeq q p : qeq q (qof p) -> q_is q p.
Proof. apply q_is_qeq. Qed.
Lemma qeq_of_q_is q p : q_is q p -> qeq q (qof p).
Proof. apply q_is_qeq. Qed.
Lemma qle_of_pt p r : pt_leb p r = true -> qle (qof p) (qof r).
Proof. apply qle_pt. Qed.
Lemma pt_of_qle p r : qle (qof p) (qof r) -> pt_leb p r = true.
Proof. apply qle_pt. Qed.

Lemma pt_leb_alt2 p r : pt_leb p r = true <-> pt_lt p r \/ p = r.
Proof.
  unfold pt_leb. rewrite orb_true_iff, pt_ltb_lt, pt_eqb_eq. tauto.
Qed.

(** ** points of a segment *)
Lemma on_seg_range s q : wf_xseg s -> on_seg s q -> qle (qof (sa s)) q /\ qle q (qof (sb s)).
Proof.
  intros W (t & T & X & Y). unfold wf_xseg, pt_lt in W. unfold qle, qof; simpl.
  destruct W as [W|[W W']].
  - assert (K : (qx (sa s) < qx (sb s))%Q) by (unfold qx, qy; rewrite <- Zlt_Qlt; auto).
    split.
    + destruct (Qlt_le_dec 0 t) as [T0|T0]; [left; rewrite X; nra|right].
      assert (E : (t == 0)%Q) by lra. rewrite E in X, Y. split; lra.
    + destruct (Qlt_le_dec t 1) as [T0|T0]; [left; rewrite X; nra|right].
      assert (E : (t == 1)%Q) by lra. rewrite E in X, Y. split; lra.
  - assert (E : (qx (sa s) == qx (sb s))%Q) by (unfold qx; rewrite W; reflexivity).
    assert (K : (qy (sa s) < qy (sb s))%Q) by (unfold qx, qy; rewrite <- Zlt_Qlt; auto).
    split; right; split; nra.
Qed.

Lemma on_seg_of_range s q : wf_xseg s -> (qcross (sa s) (sb s) q == 0)%Q -> qle (qof (sa s)) q -> qle q (qof (sb s)) -> on_seg s q.
Proof.
  intros W H L R. unfold wf_xseg, pt_lt in W. unfold qle, qof in *; simpl in *. unfold qcross in H.
  destruct W as [W|[W W']].
  - assert (K : (qx (sa s) < qx (sb s))%Q) by (unfold qx, qy; rewrite <- Zlt_Qlt; auto).
    exists ((fst q - qx (sa s)) / (qx (sb s) - qx (sa s)))%Q.
    assert (D : (0 < qx (sb s) - qx (sa s))%Q) by lra.
    split; [split|split].
    + apply Qle_shift_div_l; auto. destruct L; lra.
    + apply Qle_shift_div_r; auto. destruct R; lra.
    + field. lra.
    + assert (D' : ~ (qx (sb s) - qx (sa s) == 0)%Q) by lra. field_simplify_eq; auto. lra.
  - assert (E : (qx (sa s) == qx (sb s))%Q) by (unfold qx; rewrite W; reflexivity).
    assert (K : (qy (sa s) < qy (sb s))%Q) by (unfold qx, qy; rewrite <- Zlt_Qlt; auto).
    exists ((snd q - qy (sa s)) / (qy (sb s) - qy (sa s)))%Q.
    assert (D : (0 < qy (sb s) - qy (sa s))%Q) by lra.
    split; [split|split].
    + apply Qle_shift_div_l; auto. destruct L as [L|L], R as [R|R]; lra.
    + apply Qle_shift_div_r; auto. destruct L as [L|L], R as [R|R]; lra.
    + assert (D' : ~ (qy (sb s) - qy (sa s) == 0)%Q) by lra. field_simplify_eq; auto.
      destruct L as [L|L], R as [R|R]; nra.
    + field. lra.
Qed.

Lemma sub_on s u w q : on_seg s (qof u) -> on_seg s (qof w) -> on_seg (XS u w) q -> on_seg s q.
Proof.
  intros (a & A & Ax & Ay) (b & B & Bx & By) (t & T & X & Y). simpl in *.
  exists (a + t * (b - a))%Q. split; [split; nra|].
  split; [rewrite X, Ax, Bx|rewrite Y, Ay, By]; ring.
Qed.

Lemma colinear_sym s t : colinear s t -> colinear t s.
Proof. unfold colinear. tauto. Qed.

Lemma colinear_dec s t : colinear s t \/ ~ colinear s t.
Proof.
  unfold colinear. destruct (Z.eq_dec (C1 s t) 0), (Z.eq_dec (C2 s t) 0), (Z.eq_dec (C1 t s) 0), (Z.eq_dec (C2 t s) 0); tauto.
Qed.

Lemma colinear_line s t q : colinear s t -> on_seg t q -> (qcross (sa s) (sb s) q == 0)%Q.
Proof.
  intros (H1 & H2 & _) (u & _ & X & Y). rewrite (on_seg_mix _ _ _ _ _ X Y), H1, H2. change (inject_Z 0) with 0%Q. ring.
Qed.

Section Exact.
  Variable xs : list xseg.
  Variable ms : list mark.
  Notation seg i s := (nth_error xs i = Some s).
  Hypothesis Wf : forall i s, seg i s -> wf_xseg s.
  (** every mark lies inside its segment and on another one; of a collinear one it is an end *)
  Hypothesis Sound : forall i s p, seg i s -> In (i, p) ms ->
    inside_seg s (qof p) /\ exists j t, i <> j /\ seg j t /\ on_seg t (qof p) /\ (colinear s t -> p = sa t \/ p = sb t).
  (** every common point inside a segment is marked there, along collinear segments the ends *)
  Hypothesis Complete : forall i j s t q, i <> j -> seg i s -> seg j t -> on_seg s q -> on_seg t q -> inside_seg s q ->
    (~ colinear s t \/ is_end t q) -> exists p, q_is q p /\ In (i, p) ms.

  Definition vert (i : nat) (s : xseg) (v : pt) : Prop := v = sa s \/ v = sb s \/ In (i, v) ms.
  Definition piece (i : nat) (s : xseg) (p : xseg) : Prop :=
    wf_xseg p /\ vert i s (sa p) /\ vert i s (sb p) /\
    (forall v, vert i s v -> pt_leb v (sa p) = true \/ pt_leb (sb p) v = true).

  Lemma vert_on i s v : seg i s -> vert i s v -> on_seg s (qof v).
  Proof.
    intros Hs [-> |[-> |I]]; [apply on_seg_end_a|apply on_seg_end_b|]. apply (Sound i s v Hs I).
  Qed.

  Lemma piece_sub i s p q : seg i s -> piece i s p -> on_seg p q -> on_seg s q.
  Proof.
    intros Hs (W & A & B & _) O. destruct p as [u w]. simpl in *. apply (sub_on s u w); auto; eapply vert_on; eauto.
  Qed.

  Lemma vert_end i s p q v : seg i s -> piece i s p -> on_seg p q -> vert i s v -> q_is q v -> is_end p q.
  Proof.
    intros Hs (W & A & B & N) O V E.
    destruct (on_seg_range p q W O) as [L R].
    apply qeq_of_q_is in E. destruct (N v V) as [K|K]; apply qle_of_pt in K.
    - left. apply q_is_of_qeq. apply qle_antisym; auto. eapply qle_comp; [apply qeq_sym, E|apply qeq_refl|exact K].
    - right. apply q_is_of_qeq. apply qle_antisym; auto. eapply qle_comp; [apply qeq_refl|apply qeq_sym, E|exact K].
  Qed.

  Lemma end_or_inside s q : on_seg s q -> is_end s q \/ inside_seg s q.
  Proof.
    intro O. unfold inside_seg, is_end, q_is.
    destruct (Qeq_dec (fst q) (qx (sa s))), (Qeq_dec (snd q) (qy (sa s))),
      (Qeq_dec (fst q) (qx (sb s))), (Qeq_dec (snd q) (qy (sb s))); tauto.
  Qed.

  Lemma is_end_vert i s q : is_end s q -> exists v, vert i s v /\ q_is q v.
  Proof. unfold vert. intros [E|E]; eauto. Qed.

  Lemma pt_leb_antisym2 p r : pt_leb p r = true -> pt_leb r p = true -> p = r.
  Proof. apply pt_leb_antisym. Qed.

  Lemma same_planar i s p p' q : seg i s -> piece i s p -> piece i s p' -> p <> p' -> on_seg p q -> on_seg p' q ->
    is_end p q /\ is_end p' q.
  Proof.
    intros Hs P P' N O O'. pose proof P as (W & A & B & Nv). pose proof P' as (W' & A' & B' & Nv').
    destruct (on_seg_range p q W O) as [L R]. destruct (on_seg_range p' q W' O') as [L' R'].
    assert (V : forall v, vert i s v -> q_is q v -> is_end p q /\ is_end p' q).
    { intros v Hv E. split; [exact (vert_end i s p q v Hs P O Hv E)|exact (vert_end i s p' q v Hs P' O' Hv E)]. }
    assert (K1 : pt_leb (sb p) (sa p') = true -> is_end p q /\ is_end p' q).
    { intro K. apply qle_of_pt in K. apply (V (sb p)); auto. apply q_is_of_qeq. apply qle_antisym; auto.
      eapply qle_trans; eauto. }
    assert (K2 : pt_leb (sb p') (sa p) = true -> is_end p q /\ is_end p' q).
    { intro K. apply qle_of_pt in K. apply (V (sb p')); auto. apply q_is_of_qeq. apply qle_antisym; auto.
      eapply qle_trans; eauto. }
    destruct (Nv _ A') as [Z1|Z1]; auto. destruct (Nv' _ A) as [Z2|Z2]; auto.
    pose proof (pt_leb_antisym _ _ Z1 Z2) as Ea.
    destruct (Nv _ B') as [Z3|Z3]; auto. destruct (Nv' _ B) as [Z4|Z4]; auto.
    exfalso. apply N. pose proof (pt_leb_antisym _ _ Z3 Z4). destruct p, p'; simpl in *; congruence.
  Qed.

  (** vertices of one segment inside a collinear other one are vertices of the latter *)
  Lemma vert_transfer i j s t v : i <> j -> seg i s -> seg j t -> colinear s t ->
    vert i s v -> inside_seg t (qof v) -> vert j t v.
  Proof.
    intros NI Hs Ht CL V I.
    assert (F : forall p, q_is (qof v) p -> p = v) by (intros p Hp; eapply q_is_unique; [exact Hp|apply q_is_qof]).
    assert (E : v = sa s \/ v = sb s -> vert j t v).
    { intro Hv. assert (En : is_end s (qof v)) by (destruct Hv as [-> | ->]; [left|right]; apply q_is_qof).
      destruct (Complete j i t s (qof v)) as (p & Hp & Im); auto.
      - apply I.
      - apply (vert_on i s v Hs V).
      - rewrite (F _ Hp) in Im. right; right; auto. }
    destruct V as [V|[V|V]]; auto.
    destruct (Sound i s v Hs V) as [Is (k & r & Nk & Hr & Or & Col)].
    destruct (Nat.eq_dec k j) as [->|Nkj].
    - (* the other segment is t itself: v would be an end of t *)
      rewrite Ht in Hr. injection Hr as <-. destruct (Col CL) as [-> | ->]; exfalso; apply (proj2 I); [left|right]; apply q_is_qof.
    - destruct (Complete j k t r (qof v)) as (p & Hp & Im); auto.
      + apply I.
      + destruct (colinear_dec t r) as [CR|CR]; auto. right.
        assert (CSR : colinear s r).
        { clear - CL CR Hs Ht Hr Wf. pose proof (Wf _ _ Hs) as Ws. pose proof (Wf _ _ Ht) as Wt. pose proof (Wf _ _ Hr) as Wr.
          destruct CL as (H1 & H2 & H3 & H4), CR as (G1 & G2 & G3 & G4).
          assert (K : forall x, cross3 (sa t) (sb t) x = 0 -> forall y z, cross3 (sa t) (sb t) y = 0 -> cross3 (sa t) (sb t) z = 0 -> cross3 x y z = 0).
          { intros x Hx y z Hy Hz.
            assert (D : px (sb t) - px (sa t) <> 0 \/ py (sb t) - py (sa t) <> 0) by (unfold wf_xseg, pt_lt in Wt; lia).
            unfold cross3 in *.
            set (dx := px (sb t) - px (sa t)) in *. set (dy := py (sb t) - py (sa t)) in *.
            assert (E : dx * ((px y - px x) * (py z - py x) - (py y - py x) * (px z - px x)) = 0 /\
                        dy * ((px y - px x) * (py z - py x) - (py y - py x) * (px z - px x)) = 0).
            { set (ax := px (sa t)) in *. set (ay := py (sa t)) in *.
              split.
              - replace (dx * ((px y - px x) * (py z - py x) - (py y - py x) * (px z - px x))) with
                  ((px y - px x) * ((dx * (py z - ay) - dy * (px z - ax)) - (dx * (py x - ay) - dy * (px x - ax))) -
                   (px z - px x) * ((dx * (py y - ay) - dy * (px y - ax)) - (dx * (py x - ay) - dy * (px x - ax)))) by ring.
                rewrite Hx, Hy, Hz. ring.
              - replace (dy * ((px y - px x) * (py z - py x) - (py y - py x) * (px z - px x))) with
                  ((py y - py x) * ((dx * (py z - ay) - dy * (px z - ax)) - (dx * (py x - ay) - dy * (px x - ax))) -
                   (py z - py x) * ((dx * (py y - ay) - dy * (px y - ax)) - (dx * (py x - ay) - dy * (px x - ax)))) by ring.
                rewrite Hx, Hy, Hz. ring. }
            destruct E as [E1 E2]. destruct D as [D|D]; [apply Z.mul_eq_0 in E1|apply Z.mul_eq_0 in E2]; tauto. }
          unfold colinear. repeat split; apply K; auto. }
        destruct (Col CSR) as [-> | ->]; [left|right]; apply q_is_qof.
      + rewrite (F _ Hp) in Im. right; right; auto.
  Qed.

  Lemma strictly_inside i s p v q : seg i s -> piece i s p -> on_seg p q -> ~ is_end p q ->
    (qcross (sa s) (sb s) (qof v) == 0)%Q ->
    pt_lt (sa p) v -> qle (qof v) q -> inside_seg s (qof v).
  Proof.
    intros Hs P O NE Cr Lt Le. pose proof P as (W & A & B & Nv). pose proof (Wf _ _ Hs) as Ws.
    destruct (on_seg_range p q W O) as [L R].
    destruct (on_seg_range s _ Ws (vert_on _ _ _ Hs A)) as [LA RA].
    destruct (on_seg_range s _ Ws (vert_on _ _ _ Hs B)) as [LB RB].
    assert (Lv : qle (qof (sa p)) (qof v)) by (apply qle_of_pt, pt_leb_alt2; auto).
    split.
    - apply on_seg_of_range; auto.
      + exact (qle_trans _ (qof (sa p)) _ LA Lv).
      + exact (qle_trans _ q _ Le (qle_trans _ (qof (sb p)) _ R RB)).
    - intros [E|E].
      + assert (v = sa s) as -> by (eapply q_is_unique; [apply q_is_qof|exact E]).
        apply pt_of_qle in LA. apply pt_leb_alt2 in LA as [K|K].
        * eapply pt_lt_irrefl, pt_lt_trans; eauto.
        * rewrite K in Lt. eapply pt_lt_irrefl; eauto.
      + assert (v = sb s) as -> by (eapply q_is_unique; [apply q_is_qof|exact E]).
        apply NE. right. apply q_is_of_qeq. apply qle_antisym; auto.
        eapply qle_trans; [exact RB|exact Le].
  Qed.
  Lemma strictly_inside' i s p v q : seg i s -> piece i s p -> on_seg p q -> ~ is_end p q ->
    (qcross (sa s) (sb s) (qof v) == 0)%Q ->
    pt_lt v (sb p) -> qle q (qof v) -> inside_seg s (qof v).
  Proof.
    intros Hs P O NE Cr Lt Le. pose proof P as (W & A & B & Nv). pose proof (Wf _ _ Hs) as Ws.
    destruct (on_seg_range p q W O) as [L R].
    destruct (on_seg_range s _ Ws (vert_on _ _ _ Hs A)) as [LA RA].
    destruct (on_seg_range s _ Ws (vert_on _ _ _ Hs B)) as [LB RB].
    assert (Lv : qle (qof v) (qof (sb p))) by (apply qle_of_pt, pt_leb_alt2; auto).
    split.
    - apply on_seg_of_range; auto.
      + exact (qle_trans _ q _ (qle_trans _ (qof (sa p)) _ LA L) Le).
      + exact (qle_trans _ (qof (sb p)) _ Lv RB).
    - intros [E|E].
      + assert (v = sa s) as -> by (eapply q_is_unique; [apply q_is_qof|exact E]).
        apply NE. left. apply q_is_of_qeq. apply qle_antisym; auto.
        eapply qle_trans; [exact Le|exact LA].
      + assert (v = sb s) as -> by (eapply q_is_unique; [apply q_is_qof|exact E]).
        apply pt_of_qle in RB. apply pt_leb_alt2 in RB as [K|K].
        * eapply pt_lt_irrefl, pt_lt_trans; eauto.
        * rewrite K in Lt. eapply pt_lt_irrefl; eauto.
  Qed.

  Lemma other_end i j s t p p' q : i <> j -> seg i s -> seg j t -> piece i s p -> piece j t p' -> p <> p' ->
    on_seg p q -> on_seg p' q -> is_end p q.
  Proof.
    intros NI Hs Ht P P' N O O'.
    pose proof (piece_sub i s p q Hs P O) as Os. pose proof (piece_sub j t p' q Ht P' O') as Ot.
    destruct (end_or_inside p q O) as [E|I]; auto. exfalso.
    assert (NV : forall v, vert i s v -> ~ q_is q v).
    { intros v V E. apply (proj2 I). exact (vert_end i s p q v Hs P O V E). }
    destruct (end_or_inside s q Os) as [E|Is].
    { destruct (is_end_vert i s q E) as (v & V & Ev). exact (NV v V Ev). }
    destruct (colinear_dec s t) as [CL|NC].
    2:{ destruct (Complete i j s t q NI Hs Ht Os Ot Is (or_introl NC)) as (v & Ev & Im). apply (NV v); auto. right; right; auto. }
    (* collinear *)
    assert (NV' : forall v, vert j t v -> ~ q_is q v).
    { intros v V E. apply (NV v); auto.
      apply (vert_transfer j i t s v); auto using colinear_sym.
      eapply inside_q_is; eauto. }
    pose proof P as (W & A & B & Nv). pose proof P' as (W' & A' & B' & Nv').
    assert (I' : ~ is_end p' q).
    { intros [E|E]; [apply (NV' (sa p'))|apply (NV' (sb p'))]; auto. }
    destruct (on_seg_range p q W O) as [L R]. destruct (on_seg_range p' q W' O') as [L' R'].
    assert (CrT : forall v, vert j t v -> (qcross (sa s) (sb s) (qof v) == 0)%Q).
    { intros v V. apply (colinear_line s t); auto. apply (vert_on j t v); auto. }
    assert (CrS : forall v, vert i s v -> (qcross (sa t) (sb t) (qof v) == 0)%Q).
    { intros v V. apply (colinear_line t s); auto using colinear_sym. apply (vert_on i s v); auto. }
    apply N.
    assert (Ea : sa p = sa p').
    { destruct (pt_total (sa p) (sa p')) as [[K|K]|K]; auto; exfalso.
      - (* sa p < sa p' <= q *)
        assert (V : vert i s (sa p')).
        { apply (vert_transfer j i t s); auto using colinear_sym. eapply (strictly_inside i s p _ q); eauto. apply I. }
        destruct (Nv _ V) as [Z|Z].
        + apply pt_leb_alt2 in Z as [Z|Z]; [eapply pt_lt_irrefl, pt_lt_trans; eauto|rewrite Z in K; eapply pt_lt_irrefl; eauto].
        + apply (proj2 I). right. apply q_is_of_qeq. apply qle_antisym; auto. apply qle_of_pt in Z. eapply qle_trans; eauto.
      - assert (V : vert j t (sa p)).
        { apply (vert_transfer i j s t); auto. eapply (strictly_inside j t p' _ q); eauto. }
        destruct (Nv' _ V) as [Z|Z].
        + apply pt_leb_alt2 in Z as [Z|Z]; [eapply pt_lt_irrefl, pt_lt_trans; eauto|rewrite Z in K; eapply pt_lt_irrefl; eauto].
        + apply I'. right. apply q_is_of_qeq. apply qle_antisym; auto. apply qle_of_pt in Z. eapply qle_trans; eauto. }
    assert (Eb : sb p = sb p').
    { destruct (pt_total (sb p) (sb p')) as [[K|K]|K]; auto; exfalso.
      - assert (V : vert j t (sb p)).
        { apply (vert_transfer i j s t); auto. eapply (strictly_inside' j t p' _ q); eauto. }
        destruct (Nv' _ V) as [Z|Z].
        + apply I'. left. apply q_is_of_qeq. apply qle_antisym; auto. apply qle_of_pt in Z. exact (qle_trans _ _ _ R Z).
        + apply pt_leb_alt2 in Z as [Z|Z]; [eapply pt_lt_irrefl, pt_lt_trans; eauto|rewrite Z in K; eapply pt_lt_irrefl; eauto].
      - assert (V : vert i s (sb p')).
        { apply (vert_transfer j i t s); auto using colinear_sym. eapply (strictly_inside' i s p _ q); eauto. apply I. }
        destruct (Nv _ V) as [Z|Z].
        + apply (proj2 I). left. apply q_is_of_qeq. apply qle_antisym; auto. apply qle_of_pt in Z. exact (qle_trans _ _ _ R' Z).
        + apply pt_leb_alt2 in Z as [Z|Z]; [eapply pt_lt_irrefl, pt_lt_trans; eauto|rewrite Z in K; eapply pt_lt_irrefl; eauto]. }
    destruct p, p'; simpl in *; congruence.
  Qed.

  Theorem pieces_planar i j s t p p' : seg i s -> seg j t -> piece i s p -> piece j t p' -> p <> p' -> touch_only p p'.
  Proof.
    intros Hs Ht P P' N q O O'. destruct (Nat.eq_dec i j) as [<-|NI].
    - assert (t = s) as -> by congruence. eapply same_planar; eauto.
    - split; [exact (other_end i j s t p p' q NI Hs Ht P P' N O O')|].
      apply (other_end j i t s p' p q); auto.
  Qed.
End Exact.
