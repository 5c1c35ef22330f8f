(** * What an outline covers: the contour and the pieces along it, or the contour without them. *)
From Verif Require Import Base Spec QLib ModelSegm SegmProofs SplitNear ModelMesh MeshProofs MeshStrip.
From Coq Require Import Reals Lra Psatz Qreals.
From Verif Require Import RealMesh RealJoin RealReach RealMiter RealWind RealMove RealCorner RealStroke RealPieces RealCount RealCover RealOuter RealShift RealContour.
Open Scope R_scope.

(** the winding number of a closed chain of sides *)
Definition sides_wind (p : rpt) (sides : list rside) : Z := zsum (rwind p) sides.

(** ** Convex contours *)
Definition convex (sides : list rside) : Prop := forall e f, In e sides -> In f sides -> 0 <= turn3 (fst e) (snd e) (fst f).
Lemma ring_fan p y : forall rest (e : rside), (forall f g, followed_ring (e :: rest) f g -> snd f = fst g) ->
  sides_wind p (e :: rest) = zsum (fun f => wind3 p y (fst f) (snd f)) (e :: rest).
Proof.
  intros rest e Ch. unfold sides_wind.
  assert (L : forall rest (e : rside), (forall f g, followed (e :: rest) f g -> snd f = fst g) ->
    zsum (fun f => wind3 p y (fst f) (snd f)) (e :: rest) = (zsum (rwind p) (e :: rest) + rwind p (y, fst e) - rwind p (y, snd (last rest e)))%Z).
  { clear. induction rest as [|f rest IH]; intros e Ch.
    - rewrite !zsum_cons. cbn [last]. change (zsum _ (@nil rside)) with 0%Z at 1. change (zsum (rwind p) []) with 0%Z. unfold wind3. rewrite (rwind_anti p y (snd e)). rewrite <- (surjective_pairing e). lia.
    - rewrite last_cons, zsum_cons, (zsum_cons (rwind p)). rewrite IH by (intros; apply Ch, followed_cons; auto). rewrite <- (Ch e f (followed_hd e f rest)). unfold wind3. rewrite (rwind_anti p y (snd e)). rewrite <- (surjective_pairing e). lia. }
  rewrite L by (intros f g F; apply Ch; left; auto). rewrite (Ch (last rest e) e) by (right; exists rest; auto). lia.
Qed.
Lemma convex_left p e rest : (forall f, In f (e :: rest) -> fst f <> snd f) -> (forall f g, followed_ring (e :: rest) f g -> snd f = fst g) -> convex (e :: rest) -> (0 < sides_wind p (e :: rest))%Z ->
  forall f, In f (e :: rest) -> hleft (fst f) (snd f) p.
Proof.
  intros N Ch Cv W f If. rewrite (ring_fan p (fst e)) in W by auto. apply zsum_pos in W as (g & Ig & W).
  assert (Sn : forall h, In h (e :: rest) -> exists h', In h' (e :: rest) /\ snd h = fst h').
  { intros h Ih. apply in_split in Ih as (l & m & E). destruct m as [|h' m].
    - exists e. split; [simpl; auto|]. apply Ch. right. exists rest. split; auto. rewrite <- (last_cons rest e e), E, last_last. reflexivity.
    - exists h'. split; [rewrite E; apply in_or_app; simpl; auto|]. apply Ch. left. exists l, m. auto. }
  assert (T : 0 <= turn3 (fst e) (fst g) (snd g)) by (rewrite <- turn3_rot; apply Cv; simpl; auto).
  destruct T as [T|T]; [|rewrite tri_flat in W by auto; lia].
  destruct (tri_wind p _ _ _ T) as [[_ I]|[E _]]; [|lia].
  apply (tri_half p (fst e) (fst g) (snd g)); auto; try (apply Cv; simpl; auto). destruct (Sn g Ig) as (h & Ih & ->). apply Cv; auto.
Qed.

Section Outline.
  Variables (to_int : rpt -> pt) (j : line_join RF) (k : R).
  Hypothesis Nk : k <> 0.
  Notation r := (Rabs k).
  Notation och := (och k to_int j).
  Notation bent := (bent k).
  Section Ring.
    Variables (e : rside) (rest : list rside).
    Notation sides := (e :: rest).
    Notation next := (followed_ring sides).
    (** the pieces along the contour *)
    Definition ring_cover (p : rpt) : Prop := (exists f, In f sides /\ beside k p f) \/ (exists f g, next f g /\ bent f g = false /\ in_fan p (snd f) (och f g)).
    Definition ring_cover_open (p : rpt) : Prop := (exists f, In f sides /\ in_strip_open (r / 2) p (shift k f)) \/ (exists f g, next f g /\ bent f g = false /\ in_fan_open p (snd f) (och f g)).
    (** where the contour bends towards the side it is moved to, its sides are long enough *)
    Definition ring_long : Prop := forall f g, next f g -> bent f g = true -> long1 k f g.
    (** ... and it turns by no more than a right angle *)
    Definition ring_gentle : Prop := forall f g, next f g -> bent f g = true -> 0 <= dot (dir_of f) (dir_of g).
    (** the point is far from a vertex, or there is a bend the other way *)
    Definition ring_off_center (p : rpt) : Prop := exists f g, next f g /\ (bent f g = false \/ r < dist p (snd f)).
    Hypothesis N : forall f, In f sides -> fst f <> snd f.
    Hypothesis Ch : forall f g, next f g -> snd f = fst g.
    Notation gain p := (gain to_int j k p e rest).
    Notation W p := (sides_wind p sides).
    Lemma next_ne f g : next f g -> fst f <> snd f /\ fst g <> snd g.
    Proof. intro F. apply followed_ring_in in F as [A B]. auto. Qed.
    Lemma gain_nonneg p : ring_long -> (0 <= gain p)%Z.
    Proof.
      intro L. apply (ring_halves (slab k p) (fun f => slab k p (half1 f)) (fun f => slab k p (half2 f)) (outw k to_int j p) (inw k p)).
      - intros f I. apply slab_halves; auto.
      - intros f g F. destruct (next_ne f g F) as [Nf Ng]. split; [apply outw_nonneg; auto|]. destruct (bent f g) eqn:B; [apply inw_halves; auto|].
        unfold inw. rewrite B. destruct (half_facts f Nf) as [_ (N2 & _)]. destruct (half_facts g Ng) as [(N1 & _) _]. pose proof (slab_range k Nk p _ N2). pose proof (slab_range k Nk p _ N1). lia.
    Qed.
    Lemma gain_in p : (0 < gain p)%Z -> ring_cover p.
    Proof.
      intro G. apply ring_only in G as [(f & I & H)|(f & g & F & H)].
      - left. exists f. split; auto. apply slab_in; auto.
      - right. exists f, g. destruct (next_ne f g F). split; auto. apply (outw_in k Nk to_int j f g); auto.
      - intros f g F. destruct (next_ne f g F). apply inw_range; auto.
    Qed.
    (** a point in the open pieces: it counts, or else it is in a sharp corner that the rectangle of one of its sides leaves out *)
    Lemma gain_pos p : ring_long -> (exists f g, next f g /\ inw k p f g = 0%Z) -> ring_cover_open p ->
      (0 < gain p)%Z \/ exists f g, next f g /\ bent f g = true /\ inw k p f g = 1%Z /\ (slab k p f = 0%Z \/ slab k p g = 0%Z).
    Proof.
      intros L Z C. destruct (ring_dec (fun f g => (0 <? inw k p f g) && ((slab k p f <? inw k p f g) || (slab k p g <? inw k p f g)))%Z%bool e rest) as [(f & g & F & H)|H].
      - right. exists f, g. split; auto. destruct (next_ne f g F) as [Nf Ng]. pose proof (inw_range k Nk f g (Ch f g F) p). pose proof (slab_range k Nk p _ Nf). pose proof (slab_range k Nk p _ Ng).
        apply andb_true_iff in H as [X1 X2]. apply Z.ltb_lt in X1. split; [unfold inw in X1; destruct (bent f g); [auto|lia]|]. split; [lia|]. apply orb_true_iff in X2 as [X2|X2]; apply Z.ltb_lt in X2; [left|right]; lia.
      - left. destruct (ring_count (slab k p) (outw k to_int j p) (inw k p) e rest) as [R1 R2].
        + intros f I. apply slab_range; auto.
        + intros f g F. destruct (next_ne f g F) as [Nf Ng]. pose proof (inw_range k Nk f g (Ch f g F) p). pose proof (slab_range k Nk p _ Nf). pose proof (slab_range k Nk p _ Ng). pose proof (outw_nonneg k Nk to_int j f g Nf Ng (Ch f g F) p).
          specialize (H f g F). apply andb_false_iff in H as [H|H]; [apply Z.ltb_ge in H; lia|]. apply orb_false_iff in H as [X3 X4]. apply Z.ltb_ge in X3, X4. lia.
        + exact Z.
        + destruct C as [(f & I & C)|(f & g & F & B & C)].
          * specialize (R1 f I). rewrite slab_open in R1 by auto. unfold RealContour.gain. lia.
          * destruct (next_ne f g F). apply (R2 f g F). apply outw_open; auto.
    Qed.
    Lemma gentle_never p f g : ring_long -> ring_gentle -> next f g -> bent f g = true -> inw k p f g = 1%Z -> slab k p f = 1%Z /\ slab k p g = 1%Z.
    Proof.
      intros L G F B I. destruct (next_ne f g F) as [Nf Ng]. destruct (inw_gentle k Nk f g Nf Ng (Ch f g F) p (L f g F B) (G f g F B)) as [A1 A2]. pose proof (slab_range k Nk p _ Nf). pose proof (slab_range k Nk p _ Ng). lia.
    Qed.
    (** inside a convex contour nothing is left out *)
    Lemma corner_left p f g : 0 < k -> next f g -> bent f g = true -> long1 k f g -> inw k p f g = 1%Z ->
      (hleft (fst f) (snd f) p -> slab k p f = 1%Z) /\ (hleft (fst g) (snd g) p -> slab k p g = 1%Z).
    Proof.
      intros Pk F B [L1 L2] I. destruct (next_ne f g F) as [Nf Ng]. pose proof (Ch f g F) as C. pose proof (bent_sign k Nk f g B) as [S1 S2]. unfold turning in L1, L2. rewrite <- S2 in L1, L2.
      pose proof (dir_unit _ _ Nf) as Uu. pose proof (dir_unit _ _ Ng) as Uv. fold (dir_of f) in Uu. fold (dir_of g) in Uv. pose proof (dot_range _ _ Uu Uv) as Dr.
      set (u := dir_of f) in *. set (v := dir_of g) in *. assert (Cp : 0 <= cross u v) by (apply (Rmult_le_reg_l k); lra).
      destruct (dir_end _ _ Nf) as [Pf Ef]. destruct (dir_end _ _ Ng) as [Pg Eg]. fold (dir_of f) in Ef. fold (dir_of g) in Eg. fold u in Ef. fold v in Eg. set (df := dist (fst f) (snd f)) in *. set (dg := dist (fst g) (snd g)) in *.
      unfold inw in I. rewrite B in I. unfold Rleb in I. destruct (Rle_dec 0 k) as [_|]; [|lra].
      assert (T3 : 0 < turn3 (snd f) (lb k f) (la k g) /\ in3 p (snd f) (lb k f) (la k g)).
      { pose proof (tri_turn k f g C) as Tt. fold u v in Tt. destruct (Req_dec (cross u v) 0) as [Z|Z]; [rewrite Z in Tt; rewrite tri_flat in I by lra; lia|].
        destruct (tri_wind p (snd f) (lb k f) (la k g)) as [[_ T]|[E _]]; [rewrite Tt; apply Rmult_lt_0_compat; [apply Rmult_lt_0_compat; lra|lra]|split; auto; rewrite Tt; apply Rmult_lt_0_compat; [apply Rmult_lt_0_compat; lra|lra]|lia]. }
      destruct T3 as [Tp T3].
      assert (R2 : 0 < r / 2) by (rewrite Rabs_pos_eq; lra).
      (* a point by its coordinates along and across a side *)
      assert (Co : forall h x a b c d, fst h <> snd h -> a = dot (dir_of h) (vec (fst h) x) -> b = cross (dir_of h) (vec (fst h) x) -> c = dist (fst h) (snd h) -> d = k ->
        0 <= a <= c -> b <= d -> 0 <= turn3 (lb (r / 2) (shift k h)) (la (r / 2) (shift k h)) x /\ 0 <= turn3 (la (r / 2) (shift k h)) (ra (r / 2) (shift k h)) x /\ 0 <= turn3 (rb (r / 2) (shift k h)) (lb (r / 2) (shift k h)) x).
      { intros h x a b c d Nh -> -> -> -> H1 H2. destruct (rect_turns (r / 2) (shift k h) (shift_ne k h Nh) x) as (-> & -> & _ & ->). destruct (shift_dir k h) as [E1 E2]. unfold dir_of at 1 in E1. rewrite E1, E2.
        pose proof (dir_unit _ _ Nh) as U. fold (dir_of h) in U. destruct (unit_self _ U) as [U1 U2].
        assert (D1 : dot (dir_of h) (vec (fst (shift k h)) x) = dot (dir_of h) (vec (fst h) x)).
        { transitivity (dot (dir_of h) (vec (fst h) x) - k / 2 * dot (dir_of h) (normal_of (dir_of h))); [|rewrite U2; ring]. unfold shift, vec, off, dot. cbn [fst snd]. ring. }
        assert (D2 : cross (dir_of h) (vec (fst (shift k h)) x) = cross (dir_of h) (vec (fst h) x) - k / 2).
        { transitivity (cross (dir_of h) (vec (fst h) x) - k / 2 * cross (dir_of h) (normal_of (dir_of h))); [|rewrite U1; ring]. unfold shift, vec, off, cross. cbn [fst snd]. ring. }
        rewrite D1, D2. rewrite Rabs_pos_eq by lra. assert (0 < dist (fst h) (snd h)) by (apply dir_end; auto). repeat split; apply Rmult_le_pos; lra. }
      assert (Ra : forall h, ra (r / 2) (shift k h) = fst h /\ rb (r / 2) (shift k h) = snd h).
      { intro h. unfold ra, rb. destruct (shift_dir k h) as [E1 _]. unfold dir_of at 1 in E1. rewrite E1. unfold shift. cbn [fst snd]. rewrite !off_neg, !off_off, Rabs_pos_eq by lra. replace (k / 2 + - (k / 2)) with 0 by ring. rewrite !off_zero. auto. }
      assert (Go : forall h, fst h <> snd h -> (forall x, x = snd f \/ x = lb k f \/ x = la k g -> exists a b, a = dot (dir_of h) (vec (fst h) x) /\ b = cross (dir_of h) (vec (fst h) x) /\ 0 <= a <= dist (fst h) (snd h) /\ b <= k) ->
        hleft (fst h) (snd h) p -> slab k p h = 1%Z).
      { intros h Nh K Hl. unfold slab. destruct (rect_wind_cases (r / 2) (shift k h) R2 (shift_ne k h Nh) p) as [[-> _]|[_ H]]; auto. exfalso. apply H.
        assert (K' : forall x, x = snd f \/ x = lb k f \/ x = la k g -> 0 <= turn3 (lb (r / 2) (shift k h)) (la (r / 2) (shift k h)) x /\ 0 <= turn3 (la (r / 2) (shift k h)) (ra (r / 2) (shift k h)) x /\ 0 <= turn3 (rb (r / 2) (shift k h)) (lb (r / 2) (shift k h)) x).
        { intros x Hx. destruct (K x Hx) as (a & b & Ea & Eb & H1 & H2). eapply Co; eauto. }
        destruct (K' _ (or_introl eq_refl)) as (A1 & A2 & A3). destruct (K' _ (or_intror (or_introl eq_refl))) as (B1 & B2 & B3). destruct (K' _ (or_intror (or_intror eq_refl))) as (C1 & C2 & C3).
        assert (W : 0 < 2 * dist (fst (shift k h)) (snd (shift k h)) * (r / 2)) by (apply Rmult_lt_0_compat; [|lra]; destruct (shift_dir k h) as [_ ->]; assert (0 < dist (fst h) (snd h)) by (apply dir_end; auto); lra).
        destruct (rect_points (r / 2) (shift k h) (shift_ne k h Nh)) as (R3 & R4 & R5 & R6).
        destruct (turn3_ne (lb (r / 2) (shift k h)) (la (r / 2) (shift k h)) (ra (r / 2) (shift k h))) as (N1 & N2 & _); [lra|]. destruct (turn3_ne (lb (r / 2) (shift k h)) (ra (r / 2) (shift k h)) (rb (r / 2) (shift k h))) as (_ & N3 & N4); [lra|].
        split; [|split; [|split]]; [apply (tri_half p (snd f) (lb k f) (la k g)); auto|apply (tri_half p (snd f) (lb k f) (la k g)); auto| |apply (tri_half p (snd f) (lb k f) (la k g)); auto].
        destruct (Ra h) as [-> ->]. exact Hl. }
      destruct (unit_self u Uu) as [U1 U2]. destruct (unit_self v Uv) as [V1 V2]. destruct (normal_facts u v) as (F1 & F2 & _). destruct (normal_facts v u) as (F3 & F4 & _).
      assert (F5 : cross v u = - cross u v) by (unfold cross; ring). assert (F6 : dot v u = dot u v) by (unfold dot; ring).
      assert (Kd : k * dot u v <= k) by nra.
      assert (Se : forall w a, dot u (vec (fst f) (off (snd f) w a)) = df + a * dot u w /\ cross u (vec (fst f) (off (snd f) w a)) = a * cross u w).
      { intros w a. destruct (self_facts u Uu) as [X1 X2]. rewrite Ef. split; [transitivity (df * dot u u + a * dot u w); [unfold dot, vec, off; cbn [fst snd]; ring|rewrite X2; ring]|transitivity (df * cross u u + a * cross u w); [unfold cross, vec, off; cbn [fst snd]; ring|rewrite X1; ring]]. }
      assert (Ss : forall w a, dot v (vec (fst g) (off (fst g) w a)) = a * dot v w /\ cross v (vec (fst g) (off (fst g) w a)) = a * cross v w).
      { intros w a. unfold dot, cross, vec, off. cbn [fst snd]. split; ring. }
      split; apply Go; auto.
      - intros x Hx. exists (dot u (vec (fst f) x)), (cross u (vec (fst f) x)). split; [reflexivity|]. split; [reflexivity|]. fold df. destruct Hx as [-> |[-> | ->]].
        + rewrite <- (off_zero (snd f) (normal_of u)). destruct (Se (normal_of u) 0) as [-> ->]. lra.
        + unfold lb. fold (dir_of f). fold u. destruct (Se (normal_of u) k) as [-> ->]. rewrite U1, U2. lra.
        + rewrite (la_next k f g C). fold v. destruct (Se (normal_of v) k) as [-> ->]. rewrite F1, F2. lra.
      - intros x Hx. exists (dot v (vec (fst g) x)), (cross v (vec (fst g) x)). split; [reflexivity|]. split; [reflexivity|]. fold dg. destruct Hx as [-> |[-> | ->]].
        + destruct (Ss (normal_of v) 0) as [Q1 Q2]. rewrite off_zero in Q1, Q2. rewrite C, Q1, Q2. lra.
        + unfold lb. fold (dir_of f). fold u. rewrite C. destruct (Ss (normal_of u) k) as [-> ->]. rewrite F3, F4, F5, F6. lra.
        + unfold la. fold (dir_of g). fold v. destruct (Ss (normal_of v) k) as [-> ->]. rewrite V1, V2. lra.
    Qed.

    (** ** What is drawn *)
    Variables (s : R) (o : rpt) (q : qpt) (p : rpt).
    Hypothesis Ps : 0 < s.
    Hypothesis Pq : rplace s o p = rq q.
    Variable path : list rpt.
    Hypothesis Ip : forall f, In f sides -> In (fst f) path /\ In (snd f) path.
    (** the conversion to the grid is off by at most one unit near the path *)
    Definition osnaps : Prop := forall a v, In v path -> dist a v <= join_reach k j -> rclose 1 (rplace s o a) (rz (to_int a)).
    Hypothesis Sn : osnaps.
    Notation drawn := (MeshStrip.ring RF (fun e : rside => osection_new RF k (fst e) (snd e)) (o_add_section RF to_int) (outline_join RF to_int k (join_normalize RF j)) sides).
    Hypothesis F : far_segs q drawn.
    Lemma osnap_ok o' a v : rclose 1 (rplace s o' a) (rplace s o a) -> In v path -> dist a v <= join_reach k j -> ok to_int s o' a.
    Proof.
      intros C I D. pose proof (Sn a v I D) as [A B]. destruct C as [C1 C2]. unfold ok, rclose in *. rewrite Rabs_iff in *. rewrite Rabs_iff in *. lra.
    Qed.
    Lemma count_at o' p' : rplace s o' p' = rq q -> rclose (1 / s) p' p -> segs_wind q drawn = (W p' + eps k * gain p')%Z.
    Proof.
      intros Pq' Cl. pose proof (shift_close s o q p Ps Pq o' p' Pq' Cl) as Sh. unfold sides_wind. apply (oring_real to_int j k q Nk s o' p' Ps Pq' e rest N Ch F).
      - intros f I. destruct (Ip f I) as [I1 I2]. pose proof (dir_unit _ _ (N f I)) as U. pose proof (reach_ge k j) as G.
        split; [apply (osnap_ok o' _ (fst f)); auto|apply (osnap_ok o' _ (snd f)); auto]; unfold la, lb; rewrite off_dist; auto using unit_normal.
      - intros f g Fg a Ia. destruct (next_ne f g Fg) as [Nf Ng]. apply followed_ring_in in Fg as Fi. destruct Fi as [If Ig]. apply (osnap_ok o' _ (snd f)); auto; [apply Ip; auto|]. apply (och_reach k to_int j f g); auto.
    Qed.
    Lemma count : segs_wind q drawn = (W p + eps k * gain p)%Z.
    Proof. apply (count_at o p Pq). apply rclose_refl. left. apply Rdiv_lt_0_compat; lra. Qed.
    (** a covered point can be moved into an open piece *)
    Lemma count_near : ring_off_center p -> ring_cover p -> exists p', segs_wind q drawn = (W p' + eps k * gain p')%Z /\ ring_cover_open p' /\ exists f g, next f g /\ inw k p' f g = 0%Z.
    Proof.
      intros (f0 & g0 & F0 & Oc) C.
      assert (X : exists d, 0 < d /\ forall p', rclose d p' p -> inw k p' f0 g0 = 0%Z).
      { destruct (bent f0 g0) eqn:B; [|exists 1; split; [lra|]; intros p' _; unfold inw; rewrite B; reflexivity]. destruct Oc as [Oc|Oc]; [discriminate|].
        apply dist_gt in Oc; [|apply Rabs_pos]. destruct (dist2_open _ _ _ Oc) as (d & Pd & Far). exists d. split; auto. intros p' Cl. specialize (Far p' Cl).
        destruct (next_ne f0 g0 F0) as [Nf Ng]. pose proof (dir_unit _ _ Nf) as U. pose proof (dir_unit _ _ Ng) as V. pose proof (inw_range k Nk f0 g0 (Ch f0 g0 F0) p') as Rg.
        assert (Dk : forall w, unit w -> dist2 (off (snd f0) w k) (snd f0) <= r * r) by (intros w Uw; right; rewrite kk; unfold dist2, off; cbn [fst snd]; unfold unit in Uw; transitivity (k * k * (fst w * fst w + snd w * snd w)); [ring|rewrite Uw; ring]).
        pose proof (la_next k f0 g0 (Ch f0 g0 F0)) as La.
        destruct (Z.eq_dec (inw k p' f0 g0) 0) as [Z|Z]; auto. exfalso. assert (P1 : (0 < inw k p' f0 g0)%Z) by lia. pose proof (tri_turn k f0 g0 (Ch f0 g0 F0)) as Tt. destruct (bent_sign k Nk f0 g0 B) as [S1 _].
        unfold inw in P1. rewrite B in P1. pose proof (Rle_0_sqr k) as K2. unfold Rsqr in K2. unfold Rleb in P1. destruct (Rle_dec 0 k) as [Rk|Rk].
        - apply tri_in in P1; [|rewrite Tt; apply Rmult_le_pos; auto; apply (Rmult_le_reg_l k); lra]. apply (tri_disc _ _ _ _ (r * r)) in P1; try lra; rewrite ?La; apply Dk; auto using unit_normal.
        - apply tri_in in P1; [|rewrite turn3_flip, Tt; replace (- (k * k * cross (dir_of f0) (dir_of g0))) with (k * k * - cross (dir_of f0) (dir_of g0)) by ring; apply Rmult_le_pos; auto; apply (Rmult_le_reg_l (- k)); lra]. apply (tri_disc _ _ _ _ (r * r)) in P1; try lra; rewrite ?La; apply Dk; auto using unit_normal. }
      destruct X as (d0 & Pd0 & X). set (d := Rmin d0 (1 / s)). assert (Pd1 : 0 < 1 / s) by (apply Rdiv_lt_0_compat; lra). assert (Pd : 0 < d) by (apply Rmin_pos; auto). assert (D0 : d <= d0) by apply Rmin_l. assert (D1 : d <= 1 / s) by apply Rmin_r.
      assert (Y : exists p', rclose d p' p /\ ring_cover_open p').
      { destruct C as [(f & I & C)|(f & g & Fg & B & C)].
        - apply shift_strip in C; auto. assert (R2 : 0 < r / 2) by (pose proof (Rabs_pos_lt k Nk); lra). destruct (strip_push (r / 2) p (shift k f) d R2 (shift_ne k f (N f I)) Pd C) as (p' & Cl & C'). exists p'. split; auto. left. exists f. auto.
        - destruct (fan_push p _ _ d Pd C) as (p' & Cl & C'). exists p'. split; auto. right. exists f, g. auto. }
      destruct Y as (p' & [C1 C2] & Co). exists p'. destruct (origin s o q p Ps Pq p') as (o' & Pq'). split; [|split; auto].
      - apply (count_at o' p' Pq'). split; eapply Rle_trans; eauto.
      - exists f0, g0. split; auto. apply X. split; eapply Rle_trans; eauto.
    Qed.
    Lemma eps_grow : k < 0 -> eps k = 1%Z. Proof. intro H. unfold eps, Rleb. destruct (Rle_dec 0 k); [lra|reflexivity]. Qed.
    Lemma eps_shrink : 0 < k -> eps k = (-1)%Z. Proof. intro H. unfold eps, Rleb. destruct (Rle_dec 0 k); [reflexivity|lra]. Qed.
    Theorem grow_only : k < 0 -> (0 < segs_wind q drawn)%Z -> (0 < W p)%Z \/ ring_cover p.
    Proof. intros K. rewrite count, eps_grow by auto. intro H. destruct (Z_lt_le_dec 0 (W p)); auto. right. apply gain_in. lia. Qed.
    Theorem grow_inside : k < 0 -> ring_long -> (0 < W p)%Z -> (0 < segs_wind q drawn)%Z.
    Proof. intros K L H. rewrite count, eps_grow by auto. pose proof (gain_nonneg p L). lia. Qed.
    Theorem grow_cover : k < 0 -> ring_long -> ring_gentle -> (forall z, (0 <= W z)%Z) -> ring_off_center p -> ring_cover p -> (0 < segs_wind q drawn)%Z.
    Proof.
      intros K L G H Oc C. destruct (count_near Oc C) as (p' & -> & C' & Z). rewrite eps_grow by auto. specialize (H p').
      destruct (gain_pos p' L Z C') as [P|(f & g & Fg & B & I & S)]; [lia|]. destruct (gentle_never p' f g L G Fg B I). lia.
    Qed.
    Theorem shrink_keeps : 0 < k -> (0 < W p)%Z -> ~ ring_cover p -> (0 < segs_wind q drawn)%Z.
    Proof. intros K H C. rewrite count, eps_shrink by auto. destruct (Z_lt_le_dec 0 (gain p)) as [P|P]; [destruct C; apply gain_in; auto|lia]. Qed.
    Theorem shrink_inside : 0 < k -> ring_long -> (0 < segs_wind q drawn)%Z -> (0 < W p)%Z.
    Proof. intros K L. rewrite count, eps_shrink by auto. pose proof (gain_nonneg p L). lia. Qed.
    Theorem shrink_cover : 0 < k -> ring_long -> ring_gentle \/ convex sides -> (forall z, (W z <= 1)%Z) -> ring_off_center p -> ring_cover p -> (segs_wind q drawn <= 0)%Z.
    Proof.
      intros K L G H Oc C. destruct (count_near Oc C) as (p' & -> & C' & Z). rewrite eps_shrink by auto. specialize (H p').
      destruct (gain_pos p' L Z C') as [P|(f & g & Fg & B & I & S)]; [lia|]. destruct G as [G|Cv]; [destruct (gentle_never p' f g L G Fg B I); lia|].
      pose proof (gain_nonneg p' L) as Gn. destruct (Z_lt_le_dec 0 (W p')) as [Wp|Wp]; [|lia]. exfalso. destruct (followed_ring_in _ _ _ Fg) as [If Ig].
      destruct (corner_left p' f g K Fg B (L f g Fg B) I) as [A1 A2]. pose proof (convex_left p' e rest N Ch Cv Wp) as Hl. rewrite A1 in S by auto. rewrite A2 in S by auto. lia.
    Qed.
  End Ring.
End Outline.
