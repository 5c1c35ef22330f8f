(** * Sides of edges: sectors, the highest edge under a point, the start of a contour. *)
From Verif Require Import Base Spec QLib SegmProofs PlanarGeo PlanarSum FillProofs FillCorrect ModelGraph ModelExtract Rotation NextLink MoveLemma SectorLemma.
Open Scope Z_scope.

Definition vadd (a b : vec) : vec := (fst a + fst b, snd a + snd b).
Definition rotl (a : vec) : vec := (- snd a, fst a).
Definition rotr (a : vec) : vec := (snd a, - fst a).
Lemma vx_add_r a b c : vx a (vadd b c) = vx a b + vx a c. Proof. unfold vx, vadd. simpl. ring. Qed.
Lemma vx_self a : vx a a = 0. Proof. unfold vx. ring. Qed.
Lemma vx_rotl a b : vx a (rotl b) = dot a b. Proof. unfold vx, dot, rotl. simpl. ring. Qed.
Lemma vx_rotr a b : vx a (rotr b) = - dot a b. Proof. unfold vx, dot, rotr. simpl. ring. Qed.
Lemma rotl_vx a b : vx (rotl a) b = - dot a b. Proof. unfold vx, dot, rotl. simpl. ring. Qed.
Lemma dot_sym a b : dot a b = dot b a. Proof. unfold dot. ring. Qed.

Section Sides.
  Variable es : list xseg.
  Hypothesis A : ambient es.
  Notation ch := (ch es).
  Notation top := (top es).
  Notation bot := (bot es).
  Notation side_at := (side_at es).

  Lemma dir_nz v e : In e es -> at_v v e -> dir v e <> (0, 0).
  Proof.
    intros I H. pose proof (am_wf _ A e I) as W. pose proof (at_ends v e H) as E. unfold dir. apply vsub_nz. intro X. rewrite X in E.
    destruct E as [Y|Y]; rewrite Y in W; eapply pt_lt_irrefl; exact W.
  Qed.
  Lemma dir_sep v e e' : In e es -> In e' es -> e <> e' -> at_v v e -> at_v v e' -> ~ same_ray (dir v e) (dir v e').
  Proof.
    intros I I' N H H'. unfold dir. apply (planar_rays e e'); auto using at_ends; try (apply (am_wf _ A); auto).
    intros q O O'. exact (am_planar _ A e e' I I' N q O O').
  Qed.

  (** Turning left from [e1] to [e2] around [v] without meeting an edge of the chain:
      the sides facing each other have the same winding number. *)
  Lemma sector k v e1 e2 : balanced (ch k) -> In e1 es -> In e2 es -> e1 <> e2 -> at_v v e1 -> at_v v e2 ->
    (forall x, In x es -> at_v v x -> k x <> 0 -> x <> e1 -> x <> e2 -> ~ ccw_between (dir v e1) (dir v x) (dir v e2)) ->
    side_at k v 1 e1 = side_at k v (-1) e2.
  Proof.
    intros B I1 I2 NE H1 H2 Nb.
    pose proof (dir_nz v e1 I1 H1) as Z1. pose proof (dir_nz v e2 I2 H2) as Z2. pose proof (dir_sep v e1 e2 I1 I2 NE H1 H2) as Sp.
    pose proof (dot_pos _ Z1) as D1. pose proof (dot_pos _ Z2) as D2.
    assert (Dz : forall x, In x es -> at_v v x -> 0 < dot (dir v x) (dir v x)) by (intros; apply dot_pos; apply dir_nz; auto).
    unfold ccw_between in Nb. assert (One : (0 < 1)%Q) by reflexivity.
    assert (Two : forall w, 0 < vx (dir v e1) w -> 0 < vx w (dir v e2) ->
      (forall x, In x es -> x <> e1 -> at_v v x -> k x <> 0 -> ~ in_cone 1 (dir v e1) (dir v x) w) ->
      (forall x, In x es -> x <> e2 -> at_v v x -> k x <> 0 -> ~ in_cone (-1) (dir v e2) (dir v x) w) ->
      side_at k v 1 e1 = side_at k v (-1) e2).
    { intros w W1 W2 C1 C2.
      pose proof (side_ray es A k v e1 1 w B I1 H1 (or_introl eq_refl) ltac:(lia) C1) as S1.
      assert (W2' : 0 < -1 * vx (dir v e2) w) by (rewrite (vx_anti (dir v e2) w); lia).
      pose proof (side_ray es A k v e2 (-1) w B I2 H2 (or_intror eq_refl) W2' C2) as S2.
      destruct (near_pick _ 1%Q One (near_and _ _ S1 S2)) as (t & _ & T1 & T2). congruence. }
    destruct (Z.ltb_spec 0 (vx (dir v e1) (dir v e2))) as [P|P].
    - apply (Two (vadd (dir v e1) (dir v e2))).
      + rewrite vx_add_r, vx_self. lia.
      + rewrite vx_anti, vx_add_r, vx_self, (vx_anti (dir v e2)). lia.
      + intros x Ix Nx Hx Kx [C1 C2]. rewrite vx_add_r in C2. rewrite (vx_anti (dir v x) (dir v e1)) in C2. destruct (xseg_eq_dec x e2) as [->|N2].
        * rewrite vx_self in C2. lia.
        * apply (Nb x Ix Hx Kx Nx N2). lia.
      + intros x Ix Nx Hx Kx [C1 C2]. rewrite vx_add_r in C2. rewrite (vx_anti (dir v e2) (dir v x)) in C1. rewrite (vx_anti (dir v x) (dir v e1)) in C2. destruct (xseg_eq_dec x e1) as [->|N1].
        * rewrite vx_self in C2. lia.
        * apply (Nb x Ix Hx Kx N1 Nx). lia.
    - destruct (Z.eqb_spec (vx (dir v e1) (dir v e2)) 0) as [Q0|Q0].
      + destruct (opp_ray _ _ Q0 (not_same _ _ Sp Q0) Z1 Z2) as (m & n & Hm & Hn & F1 & F2).
        apply (Two (rotl (dir v e1))).
        * rewrite vx_rotl. lia.
        * pose proof (opp_vx _ _ _ _ (rotl (dir v e1)) F1 F2) as E. rewrite !vx_rotl in E. rewrite vx_anti, vx_rotl. nia.
        * intros x Ix Nx Hx Kx [C1 C2]. destruct (xseg_eq_dec x e2) as [->|N2]; [lia|].
          apply (Nb x Ix Hx Kx Nx N2). lia.
        * intros x Ix Nx Hx Kx [C1 C2]. destruct (xseg_eq_dec x e1) as [->|N1]; [rewrite (vx_anti (dir v e2) (dir v e1)) in C1; lia|].
          apply (Nb x Ix Hx Kx N1 Nx). pose proof (opp_vx _ _ _ _ (dir v x) F1 F2). nia.
      + assert (S1 : near (fun t => wind (ch k) (ray v (rotl (dir v e1)) t) = side_at k v 1 e1)).
        { apply (side_ray es A k v e1 1 (rotl (dir v e1)) B I1 H1); auto.
          - rewrite vx_rotl. lia.
          - intros x Ix Nx Hx Kx [C1 C2]. destruct (xseg_eq_dec x e2) as [->|N2]; [lia|].
            apply (Nb x Ix Hx Kx Nx N2). lia. }
        assert (S2 : near (fun t => wind (ch k) (ray v (rotr (dir v e2)) t) = side_at k v (-1) e2)).
        { apply (side_ray es A k v e2 (-1) (rotr (dir v e2)) B I2 H2); auto.
          - rewrite vx_rotr. lia.
          - intros x Ix Nx Hx Kx [C1 C2]. destruct (xseg_eq_dec x e1) as [->|N1]; [rewrite (vx_anti (dir v e2) (dir v e1)) in C1; lia|].
            apply (Nb x Ix Hx Kx N1 Nx). rewrite (vx_anti (dir v x) (dir v e2)). lia. }
        assert (S3 : near (fun t => wind (ch k) (ray v (rotl (dir v e1)) t) = wind (ch k) (ray v (rotr (dir v e2)) t))).
        { apply (cone_ray es A k v _ _ e1 B I1 H1).
          - rewrite vx_rotr. assert (E : dot (rotl (dir v e1)) (dir v e2) = vx (dir v e1) (dir v e2)) by (unfold dot, rotl, vx; simpl; ring). lia.
          - intros x Ix Hx Kx [C1 C2]. rewrite rotl_vx in C1. rewrite vx_rotr in C2. pose proof (Dz x Ix Hx) as Dx. rewrite (dot_sym (dir v x) (dir v e2)) in C2.
            destruct (xseg_eq_dec x e1) as [->|N1]; [lia|].
            destruct (xseg_eq_dec x e2) as [->|N2]; [lia|].
            specialize (Nb x Ix Hx Kx N1 N2). clear - Nb C1 C2 Dx P Q0.
            set (u1 := dir v e1) in *. set (u2 := dir v e2) in *. set (ux := dir v x) in *. clearbody u1 u2 ux.
            assert (M : vx u2 u1 * dot ux ux = vx u2 ux * dot u1 ux + vx ux u1 * dot u2 ux) by (unfold vx, dot; ring).
            rewrite (vx_anti u2 u1), (vx_anti u2 ux), (vx_anti ux u1) in M. nia. }
        destruct (near_pick _ 1%Q One (near_and _ _ S1 (near_and _ _ S2 S3))) as (t & _ & T1 & T2 & T3). congruence.
  Qed.

  (** *** linearity *)
  Section Lin.
    Variables (k k1 k2 : xseg -> Z) (c : Z).
    Hypothesis H : forall y, In y es -> k y = k1 y + c * k2 y.
    Lemma ch_lin {T} (f : xseg -> Z -> T -> Z) (t : T) : (forall y a b, f y (a + c * b) t = f y a t + c * f y b t) ->
      zsum (fun g => f (fst g) (snd g) t) (ch k) = zsum (fun g => f (fst g) (snd g) t) (ch k1) + c * zsum (fun g => f (fst g) (snd g) t) (ch k2).
    Proof.
      intro L. unfold SectorLemma.ch. rewrite !zsum_map. cbn [fst snd]. rewrite <- zsum_mult, <- zsum_plus.
      apply zsum_ext. intros y I. rewrite (H y I). apply L.
    Qed.
    Lemma wind_lin q : wind (ch k) q = wind (ch k1) q + c * wind (ch k2) q.
    Proof. unfold wind. apply (ch_lin (fun e z q => if under e q then z else 0)). intros. destruct (under y q); lia. Qed.
    Lemma boundary_lin v : boundary (ch k) v = boundary (ch k1) v + c * boundary (ch k2) v.
    Proof. unfold boundary. apply (ch_lin (fun e z v => z * (bz (pt_eqb (sb e) v) - bz (pt_eqb (sa e) v)))). intros. lia. Qed.
    Lemma balanced_lin : balanced (ch k1) -> balanced (ch k2) -> balanced (ch k).
    Proof. intros B1 B2 v. rewrite boundary_lin, B1, B2. lia. Qed.
    Lemma bot_lin e : bot k e = bot k1 e + c * bot k2 e.
    Proof.
      unfold SectorLemma.bot. destruct (is_not_vertical e).
      - unfold below. apply (ch_lin (fun y z t => if spans y t && lt_atb t y e then z else 0)). intros. destruct (_ && _); lia.
      - unfold le_sum. apply (ch_lin (fun y z t => if spans y t && Qle_bool (height y t) (qy (sa e)) then z else 0)). intros. destruct (_ && _); lia.
    Qed.
    Lemma top_lin e : In e es -> top k e = top k1 e + c * top k2 e.
    Proof. intro I. unfold SectorLemma.top. rewrite bot_lin, (H e I). lia. Qed.
  End Lin.

  (** *** the highest edge under a point *)
  Lemma pick_max (x : Q) (l : list xseg) : l <> [] -> (forall y, In y l -> In y es /\ spans y x = true) ->
    exists e, In e l /\ forall y, In y l -> y <> e -> lt_at x y e.
  Proof.
    induction l as [|a l IH]; [congruence|]. intros _ H. destruct l as [|b l].
    - exists a. split; [left; auto|]. intros y [<-|[]] N. congruence.
    - destruct IH as (e & Ie & M); [discriminate|intros; apply H; right; auto|].
      destruct (xseg_eq_dec a e) as [->|N]; [exists e; split; [left; auto|]; intros y [<-|I] N; [congruence|auto]|].
      destruct (H a (or_introl eq_refl)) as [I1 S1]. destruct (H e (or_intror Ie)) as [I2 S2].
      destruct (lt_at_total a e) with (x := x) as [L|L]; auto.
      + intros q O O'. exact (am_planar _ A a e I1 I2 N q O O').
      + exists e. split; [right; auto|]. intros y [<-|I] Ny; auto.
      + exists a. split; [left; auto|]. intros y [<-|I] Ny; [congruence|]. destruct (xseg_eq_dec y e) as [->|]; auto. eapply lt_at_trans; eauto.
  Qed.
  Lemma highest (P : xseg -> bool) q :
    (forall k, (forall y, In y es -> k y <> 0 -> P y = true) -> wind (ch k) q = 0) \/
    exists e, In e es /\ P e = true /\
      forall k, balanced (ch k) -> (forall y, In y es -> k y <> 0 -> P y = true) -> wind (ch k) q = top k e.
  Proof.
    set (l := filter (fun e => P e && under e q) es).
    assert (L : forall y, In y l <-> In y es /\ P y = true /\ under y q = true).
    { intro y. unfold l. rewrite filter_In, andb_true_iff. tauto. }
    destruct l as [|a l'] eqn:El.
    - left. intros k K. unfold wind, SectorLemma.ch. rewrite zsum_map. apply zsum_zero. intros y I. simpl.
      destruct (under y q) eqn:U; auto. destruct (Z.eq_dec (k y) 0); auto. exfalso. apply (L y). auto.
    - right. rewrite <- El in L. destruct (pick_max (fst q) l) as (e & Ie & M).
      { rewrite El. discriminate. }
      { intros y I. apply L in I as (I & _ & U). unfold under in U. apply andb_true_iff in U. tauto. }
      apply L in Ie as Ie'. destruct Ie' as (Ie' & Pe & Ue). exists e. split; auto. split; auto.
      intros k B K. unfold under in Ue. apply andb_true_iff in Ue as [Se He].
      pose proof (spans_nonvert _ _ Se) as Ne.
      unfold SectorLemma.top, SectorLemma.bot. rewrite (nonvert_is _ Ne).
      assert (Bc : below (ch k) e (qx (sa e)) = below (ch k) e (fst q)).
      { apply (below_const _ (ch_good es A k) (e, k e)); auto using in_ch. apply spans_iff. unfold nonvert in Ne. split; [apply Qle_refl|auto]. }
      rewrite Bc.
      unfold wind, below, SectorLemma.ch. rewrite !zsum_map. cbn [fst snd].
      assert (NDe : NoDup es) by apply (am_nodup _ A).
      assert (Z : zsum (fun x => if under x q then k x else 0) es - zsum (fun x => if spans x (fst q) && lt_atb (fst q) x e then k x else 0) es
                  = zsum (fun x => if xseg_eq_dec x e then k e else 0) es).
      { rewrite <- zsum_minus. apply zsum_ext. intros y I. unfold under.
        destruct (spans y (fst q)) eqn:Sy; cbn [andb].
        2:{ destruct (xseg_eq_dec y e) as [->|]; [congruence|]. auto. }
        destruct (Z.eq_dec (k y) 0) as [K0|K0].
        { destruct (xseg_eq_dec y e) as [->|]; rewrite K0; repeat match goal with |- context [if ?b then 0 else 0] => destruct b end; reflexivity. }
        destruct (xseg_eq_dec y e) as [->|N].
        - rewrite He. destruct (lt_atb (fst q) e e) eqn:X; [apply lt_atb_iff in X; destruct (lt_at_irrefl _ _ X)|]. lia.
        - destruct (Qltb (height y (fst q)) (snd q)) eqn:Hy.
          + assert (Iy : In y l) by (apply L; split; auto; split; auto; unfold under; rewrite Sy, Hy; auto).
            rewrite (proj2 (lt_atb_iff _ _ _) (M y Iy N)). lia.
          + destruct (lt_atb (fst q) y e) eqn:X; [|lia]. exfalso. apply lt_atb_iff in X. unfold lt_at in X.
            apply Qltb_lt in He. assert (Hy' : ~ (height y (fst q) < snd q)%Q) by (intro Y; apply Qltb_lt in Y; congruence). lra. }
      assert (Z2 : zsum (fun x => if xseg_eq_dec x e then k e else 0) es = k e).
      { clear - NDe Ie'. induction es as [|a l IH]; [destruct Ie'|]. inversion NDe; subst. rewrite zsum_cons. destruct Ie' as [->|I].
        - destruct (xseg_eq_dec e e); [|congruence]. rewrite zsum_zero; [lia|]. intros x Ix. destruct (xseg_eq_dec x e); congruence.
        - destruct (xseg_eq_dec a e); [subst; tauto|]. rewrite IH; auto. }
      lia.
  Qed.

  (** *** the highest edge under the lower side of an edge *)
  Lemma highest_below (P : xseg -> bool) u : In u es -> nonvert u ->
    (forall k, (forall y, In y es -> k y <> 0 -> P y = true) -> bot k u = 0) \/
    exists e, In e es /\ P e = true /\ spans e (qx (sa u)) = true /\ lt_at (qx (sa u)) e u /\
      (forall y, In y es -> P y = true -> spans y (qx (sa u)) = true -> lt_at (qx (sa u)) y u -> y <> e -> lt_at (qx (sa u)) y e) /\
      forall k, balanced (ch k) -> (forall y, In y es -> k y <> 0 -> P y = true) -> bot k u = top k e.
  Proof.
    intros Iu Nu. set (x := qx (sa u)). set (l := filter (fun e => P e && (spans e x && lt_atb x e u)) es).
    assert (L : forall y, In y l <-> In y es /\ P y = true /\ spans y x = true /\ lt_at x y u).
    { intro y. unfold l. rewrite filter_In, !andb_true_iff, lt_atb_iff. tauto. }
    destruct l as [|a l'] eqn:El.
    - left. intros k K. unfold SectorLemma.bot. rewrite (nonvert_is _ Nu). fold x. unfold below, SectorLemma.ch. rewrite zsum_map. apply zsum_zero. intros y I. cbn [fst snd].
      destruct (spans y x && lt_atb x y u) eqn:U; auto. destruct (Z.eq_dec (k y) 0); auto. exfalso. apply andb_true_iff in U as [U1 U2]. apply lt_atb_iff in U2. apply (L y). auto.
    - right. rewrite <- El in L. destruct (pick_max x l) as (e & Ie & M).
      { rewrite El. discriminate. }
      { intros y I. apply L in I. tauto. }
      apply L in Ie as Ie'. destruct Ie' as (Ie' & Pe & Se & Le). exists e. do 4 (split; auto). split.
      { intros y Iy Py Sy Ly N. apply M; auto. apply L. auto. }
      intros k B K. pose proof (spans_nonvert _ _ Se) as Ne.
      unfold SectorLemma.top, SectorLemma.bot. rewrite (nonvert_is _ Ne), (nonvert_is _ Nu). fold x.
      assert (Bc : below (ch k) e (qx (sa e)) = below (ch k) e x).
      { apply (below_const _ (ch_good es A k) (e, k e)); auto using in_ch. apply spans_iff. unfold nonvert in Ne. split; [apply Qle_refl|auto]. }
      rewrite Bc.
      unfold below, SectorLemma.ch. rewrite !zsum_map. cbn [fst snd].
      assert (NDe : NoDup es) by apply (am_nodup _ A).
      assert (Z : zsum (fun y => if spans y x && lt_atb x y u then k y else 0) es - zsum (fun y => if spans y x && lt_atb x y e then k y else 0) es
                  = zsum (fun y => if xseg_eq_dec y e then k e else 0) es).
      { rewrite <- zsum_minus. apply zsum_ext. intros y I.
        destruct (spans y x) eqn:Sy; cbn [andb].
        2:{ destruct (xseg_eq_dec y e) as [->|]; [congruence|]. auto. }
        destruct (Z.eq_dec (k y) 0) as [K0|K0].
        { destruct (xseg_eq_dec y e) as [->|]; rewrite K0; repeat match goal with |- context [if ?b then 0 else 0] => destruct b end; reflexivity. }
        destruct (xseg_eq_dec y e) as [->|N].
        - rewrite (proj2 (lt_atb_iff _ _ _) Le). destruct (lt_atb x e e) eqn:X; [apply lt_atb_iff in X; destruct (lt_at_irrefl _ _ X)|]. lia.
        - destruct (lt_atb x y u) eqn:Hy.
          + assert (Iy : In y l) by (apply L; split; auto; split; auto; split; auto; apply lt_atb_iff; auto).
            rewrite (proj2 (lt_atb_iff _ _ _) (M y Iy N)). lia.
          + destruct (lt_atb x y e) eqn:X; [|lia]. exfalso. apply lt_atb_iff in X. pose proof (lt_at_trans _ _ _ _ X Le) as Y. apply lt_atb_iff in Y. congruence. }
      assert (Z2 : zsum (fun x => if xseg_eq_dec x e then k e else 0) es = k e).
      { clear - NDe Ie'. induction es as [|a l IH]; [destruct Ie'|]. inversion NDe; subst. rewrite zsum_cons. destruct Ie' as [->|I].
        - destruct (xseg_eq_dec e e); [|congruence]. rewrite zsum_zero; [lia|]. intros x Ix. destruct (xseg_eq_dec x e); congruence.
        - destruct (xseg_eq_dec a e); [subst; tauto|]. rewrite IH; auto. }
      lia.
  Qed.

  (** *** the start of a contour: nothing above the topmost edge at the leftmost vertex *)
  Lemma start_top k e : balanced (ch k) -> In e es ->
    (forall x, In x es -> k x <> 0 -> pt_lt (sa x) (sa e) -> False) ->
    (forall x, In x es -> k x <> 0 -> sa x = sa e -> x <> e -> vx (dir (sa e) e) (dir (sa e) x) <= 0) ->
    top k e = 0.
  Proof.
    intros B Ie Mn Tp. set (v := sa e) in *. pose proof (am_wf _ A e Ie) as We.
    assert (Hv : at_v v e) by (left; auto).
    assert (Ed : dir v e = vsub (sb e) (sa e)) by (unfold dir, other, v; rewrite pt_eqb_refl; auto).
    set (w := (-1, Z.abs (snd (dir v e)) + 1) : vec).
    assert (Uw : 0 < 1 * vx (dir v e) w).
    { unfold vx, w. rewrite Ed. unfold wf_xseg, pt_lt in We. unfold vsub. cbn [fst snd]. fold v in We |- *.
      destruct We as [We|[We1 We2]]; nia. }
    assert (S : near (fun t => wind (ch k) (ray v w t) = side_at k v 1 e)).
    { apply (side_ray es A k v e 1 w B Ie Hv (or_introl eq_refl) Uw).
      intros x Ix Nx Hx Kx [C1 C2]. destruct Hx as [Hx|Hx].
      - specialize (Tp x Ix Kx Hx Nx). lia.
      - apply (Mn x Ix Kx). rewrite <- Hx. apply (am_wf _ A x Ix). }
    assert (One : (0 < 1)%Q) by reflexivity.
    destruct (near_pick _ 1%Q One S) as (t & T & E). unfold SectorLemma.side_at in E. fold v in E. rewrite pt_eqb_refl in E. simpl in E.
    rewrite <- E. unfold wind, SectorLemma.ch. rewrite zsum_map. apply zsum_zero. intros x Ix. cbn [fst snd].
    destruct (Z.eq_dec (k x) 0) as [->|Kx]; [destruct (under _ _); auto|].
    destruct (under x (ray v w t)) eqn:U; auto. exfalso. unfold under in U. apply andb_true_iff in U as [U _]. apply spans_iff in U.
    unfold ray, w in U. cbn [fst snd] in U. destruct U as [U _].
    assert (X : (qx (sa x) < qx v)%Q) by (unfold zq in U; assert (Z1 : (inject_Z (-1) == -1)%Q) by reflexivity; rewrite Z1 in U; lra).
    apply (Mn x Ix Kx). left. apply qz_lt. exact X.
  Qed.
End Sides.
