(** * Which outer contour a hole belongs to, when the contours may share whole edges (slices). *)
From Verif Require Import Base Spec QLib SegmProofs PlanarGeo PlanarSum FillProofs FillCorrect ModelGraph GraphProofs ModelExtract ExtractProofs Rotation NextLink MoveLemma SectorLemma Sides WalkSides Orient
  ModelBind BindProofs BindSweep Nest AreaWind ModelSlice SliceNext SliceWalk SliceLoops SliceMain.
From Coq Require Import Permutation.
Open Scope Z_scope.

Lemma min_point_spec : forall l i ix a f, nth_error f ix = Some a -> (forall j p, nth_error l j = Some p -> nth_error f (i + j) = Some p) ->
  (forall j p, (j < i)%nat -> nth_error f j = Some p -> ~ pt_lt p a) -> length f = (i + length l)%nat ->
  exists ix' a', min_point i l ix a = (ix', a') /\ nth_error f ix' = Some a' /\ forall p, In p f -> ~ pt_lt p a'.
Proof.
  induction l as [|p l IH]; intros i ix a f Ha Hl Hm Len; cbn [min_point].
  - exists ix, a. split; auto. split; auto. intros p I. apply In_nth_error in I as (j & Hj). apply (Hm j); auto. cbn [length] in Len. rewrite Nat.add_0_r in Len. rewrite <- Len. apply nth_error_Some. congruence.
  - assert (Hp : nth_error f i = Some p) by (rewrite <- (Nat.add_0_r i); apply Hl; auto).
    assert (Hl' : forall j q, nth_error l j = Some q -> nth_error f (S i + j) = Some q) by (intros j q H; replace (S i + j)%nat with (i + S j)%nat by lia; apply Hl; auto).
    cbn [length] in Len. destruct (pt_ltb p a) eqn:E.
    + apply pt_ltb_lt in E. apply IH; auto; [|lia]. intros j q Lj Hq. destruct (Nat.eq_dec j i) as [->|]; [rewrite Hp in Hq; injection Hq as <-; apply pt_lt_irrefl|].
      intro X. apply (Hm j q); [lia|auto|]. eapply pt_lt_trans; eauto.
    + apply pt_ltb_ge in E. apply IH; auto; [|lia]. intros j q Lj Hq. destruct (Nat.eq_dec j i) as [->|]; [rewrite Hp in Hq; injection Hq as <-; auto|]. apply (Hm j); auto. lia.
Qed.
Lemma in_edges (c : list pt) i p q : nth_error c i = Some p -> nth_error c (S i mod length c) = Some q -> In (p, q) (edges c).
Proof.
  intros Hp Hq. assert (L : (i < length c)%nat) by (apply nth_error_Some; congruence). apply nth_error_In with (n := i). rewrite Nest.edges_nth, Hp.
  destruct (Nat.eq_dec (S i) (length c)) as [E|N].
  - rewrite E, Nat.mod_same in Hq by lia. rewrite (proj2 (nth_error_None c (S i))) by lia. destruct c; [discriminate|]. simpl in Hq. congruence.
  - rewrite Nat.mod_small in Hq by lia. rewrite Hq. auto.
Qed.
Lemma left_bottom_spec (c : list pt) : NoDup c -> (3 <= length c)%nat ->
  exists a b0 b1, (forall p, In p c -> ~ pt_lt p a) /\ In (a, b0) (edges c) /\ In (b1, a) (edges c) /\ b0 <> b1 /\
    left_bottom_segment c = Some (if is_under_segment (XS a b0) (XS a b1) then XS a b0 else XS a b1).
Proof.
  intros ND L. destruct c as [|f r] eqn:Ec; [simpl in L; lia|]. rewrite <- Ec in *.
  destruct (min_point_spec r 1 0 f c) as (ix & a & E & Ha & Mn).
  - rewrite Ec. auto.
  - intros j p H. rewrite Ec. exact H.
  - intros j p Lj H. assert (j = 0)%nat by lia. subst j. rewrite Ec in H. injection H as <-. apply pt_lt_irrefl.
  - rewrite Ec. simpl. lia.
  - assert (Li : (ix < length c)%nat) by (apply nth_error_Some; congruence). set (n := length c) in *.
    destruct (nth_error c ((ix + 1) mod n)) as [b0|] eqn:E0; [|apply nth_error_None in E0; pose proof (Nat.mod_upper_bound (ix + 1) n ltac:(lia)); unfold n in *; lia].
    destruct (nth_error c ((ix + n - 1) mod n)) as [b1|] eqn:E1; [|apply nth_error_None in E1; pose proof (Nat.mod_upper_bound (ix + n - 1) n ltac:(lia)); unfold n in *; lia].
    assert (M1 : ((ix + n - 1) mod n = if ix =? 0 then n - 1 else ix - 1)%nat).
    { destruct (Nat.eqb_spec ix 0) as [->|N]; [apply Nat.mod_small; lia|]. replace (ix + n - 1)%nat with ((ix - 1) + 1 * n)%nat by lia. rewrite Nat.mod_add by lia. apply Nat.mod_small. lia. }
    assert (M2 : ((ix + 1) mod n = if ix =? n - 1 then 0 else ix + 1)%nat).
    { destruct (Nat.eqb_spec ix (n - 1)) as [->|N]; [replace (n - 1 + 1)%nat with n by lia; apply Nat.mod_same; lia|]. apply Nat.mod_small. lia. }
    exists a, b0, b1. split; auto. split; [|split; [|split]].
    + apply (in_edges c ix); auto. fold n. replace (S ix) with (ix + 1)%nat by lia. auto.
    + apply (in_edges c ((ix + n - 1) mod n)); auto. fold n. rewrite M1. destruct (Nat.eqb_spec ix 0) as [->|N].
      * replace (S (n - 1)) with n by lia. rewrite Nat.mod_same by lia. auto.
      * replace (S (ix - 1)) with ix by lia. rewrite Nat.mod_small by lia. auto.
    + intros X. subst b1. assert (Q : ((ix + 1) mod n = (ix + n - 1) mod n)%nat).
      { apply (proj1 (NoDup_nth_error c) ND); [apply nth_error_Some; congruence|congruence]. }
      rewrite M1, M2 in Q. destruct (Nat.eqb_spec ix (n - 1)), (Nat.eqb_spec ix 0); lia.
    + unfold left_bottom_segment. rewrite Ec. rewrite E. rewrite <- Ec. fold n. rewrite E0, E1. auto.
Qed.
Lemma vx_trans a b c : lexpos a -> lexpos b -> lexpos c -> 0 < vx a b -> 0 < vx b c -> 0 < vx a c.
Proof.
  intros A B C H1 H2. assert (E : fst b * vx a c = fst a * vx b c + fst c * vx a b) by (unfold vx; ring).
  assert (Fb : 0 < fst a) by (destruct A as [|[A1 A2]]; auto; exfalso; unfold vx in H1; rewrite A1 in H1; destruct B; nia).
  assert (0 <= fst c) by (unfold lexpos in C; lia). assert (0 < fst b * vx a c) by nia. assert (0 <= fst b) by (unfold lexpos in B; lia). nia.
Qed.

(** the segment under a directed edge *)
Definition us (d : pt * pt) : xseg := if pt_ltb (fst d) (snd d) then XS (fst d) (snd d) else XS (snd d) (fst d).
Lemma us_l e : wf_xseg e -> us (sa e, sb e) = e.
Proof. intro W. unfold us. cbn [fst snd]. rewrite (proj2 (pt_ltb_lt _ _) W). destruct e; auto. Qed.
Lemma us_r e : wf_xseg e -> us (sb e, sa e) = e.
Proof.
  intro W. unfold us. cbn [fst snd]. rewrite (proj2 (pt_ltb_ge _ _)); [destruct e; auto|]. intro X. eapply pt_lt_irrefl, pt_lt_trans; [exact W|exact X].
Qed.
Lemma us_cases d : d = (sa (us d), sb (us d)) /\ pt_ltb (fst d) (snd d) = true \/ d = (sb (us d), sa (us d)) /\ pt_ltb (fst d) (snd d) = false.
Proof. destruct d as [p q]. unfold us. cbn [fst snd]. destruct (pt_ltb p q); auto. Qed.

Lemma join_holes_aux dbg cw (os hs : list (list pt)) (R : nat -> nat -> Prop) an :
  all_some (map (fun ih => option_map (IdS true (fst ih)) (left_bottom_segment (snd ih))) (enum hs)) = Some an ->
  (hs <> [] -> exists out par, scan_join dbg (map (fun c => [c]) os) hs (isort a_angle_leb an) cw = Some out /\
    assembled os hs par out /\ forall ix k, nth_error par ix = Some k -> R ix k) ->
  exists out par, join_unsorted_holes dbg (map (fun c => [c]) os) hs cw = Some out /\
    assembled os hs par out /\ forall ix k, nth_error par ix = Some k -> R ix k.
Proof.
  intros An Bh. destruct hs as [|h0 hs].
  { exists (map (fun c => [c]) os), []. split.
    - unfold join_unsorted_holes. destruct (map (fun c => [c]) _) as [|s [|s' l]]; auto.
    - split; [|intros [|ix] k E; discriminate]. split; auto. split; auto. split; [apply map_length|]. intros k o E. rewrite (single_nth _ k o E). unfold given. simpl. auto. }
  destruct Bh as (out & par & E & As & Bl); [discriminate|].
  destruct os as [|o0 [|o1 os]].
  - exfalso. destruct As as (Lp & F & _). destruct par as [|k par]; [discriminate|]. inversion F; subst. simpl in *. lia.
  - exists [o0 :: h0 :: hs], par. destruct As as (Lp & F & Lo & Sp). assert (Pr : par = repeat O (length (h0 :: hs))).
    { rewrite <- Lp. clear - F. induction F as [|k l H F IH]; auto. cbn [length repeat] in *. f_equal; auto. lia. }
    split; [|split; auto].
    + reflexivity.
    + split; auto. split; auto. split; auto. intros k o H. destruct k as [|[|k]]; try discriminate. injection H as <-. rewrite Pr, given_all. auto.
  - exists out, par. split; auto. unfold join_unsorted_holes. cbn [map]. cbn [map] in E, An. rewrite An. exact E.
Qed.

Section Nest.
  Variable g : graph.
  Hypothesis P : links_planar (g_links g).
  Notation ges := (ges g).
  Notation A := (g_ambient g P).
  Notation top := (top ges).
  Notation bot := (bot ges).
  Notation ch := (ch ges).
  Variable clockwise : bool.
  Definition nrm (c : list pt) : list pt := if clockwise then rev c else c.
  Notation N c := (edges (nrm c)).
  Notation kc c := (ke (nrm c)).
  Definition lv (k : xseg -> Z) (d : pt * pt) : Z := if pt_ltb (fst d) (snd d) then top k (us d) else bot k (us d).
  Variables outers holes : list (list pt).
  Notation cs := (outers ++ holes).
  Hypothesis Hes : forall c d, In c cs -> In d (N c) -> In (us d) ges.
  Hypothesis Hnd : NoDup (flat_map (fun c => N c) cs).
  Hypothesis Hs : forall c, In c cs -> NoDup c /\ (3 <= length c)%nat.
  Hypothesis Hb : forall c, In c cs -> balanced (ch (kc c)).
  Hypothesis Ho : forall c q, In c outers -> wind (ch (kc c)) q = 0 \/ wind (ch (kc c)) q = 1.
  Hypothesis Hh : forall c q, In c holes -> wind (ch (kc c)) q = 0 \/ wind (ch (kc c)) q = -1.
  Definition usedE (e : xseg) : Prop := exists c d, In c cs /\ In d (N c) /\ us d = e.
  Definition supported (k : xseg -> Z) : Prop := balanced (ch k) /\ forall e, In e ges -> k e <> 0 -> usedE e.
  Hypothesis Hc : forall c k, In c cs -> supported k -> forall d d', In d (N c) -> In d' (N c) -> lv k d = lv k d'.
  Definition kS (e : xseg) : Z := zsum (fun c => kc c e) cs.
  Hypothesis HS : supported kS.
  Hypothesis H1 : forall c d, In c cs -> In d (N c) -> lv kS d = 1.

  Notation F1 := (repeat 0%N (length (g_links g))).
  Lemma L1 : length F1 = length (g_links g). Proof. apply repeat_length. Qed.
  Lemma nrm_simple c : In c cs -> NoDup (nrm c) /\ (3 <= length (nrm c))%nat.
  Proof. intro I. destruct (Hs c I). unfold nrm. destruct clockwise; auto. rewrite rev_length. split; auto. apply NoDup_rev. auto. Qed.
  Lemma in_nrm c p : In p (nrm c) <-> In p c.
  Proof. unfold nrm. destruct clockwise; [rewrite <- in_rev|]; tauto. Qed.
  Lemma wf_ges e : In e ges -> wf_xseg e. Proof. apply (am_wf _ A). Qed.
  Lemma lv_l k e : In e ges -> lv k (sa e, sb e) = top k e.
  Proof. intro I. unfold lv. rewrite us_l by (apply wf_ges; auto). cbn [fst snd]. rewrite (proj2 (pt_ltb_lt _ _) (wf_ges e I)). auto. Qed.
  Lemma lv_r k e : In e ges -> lv k (sb e, sa e) = bot k e.
  Proof.
    intro I. unfold lv. rewrite us_r by (apply wf_ges; auto). cbn [fst snd]. rewrite (proj2 (pt_ltb_ge _ _)); auto. intro X. eapply pt_lt_irrefl, pt_lt_trans; [exact (wf_ges e I)|exact X].
  Qed.
  Lemma tb k e : top k e = bot k e + k e. Proof. reflexivity. Qed.
  (** values of the chain of one contour *)
  Lemma kc_l c e : In c cs -> In (sa e, sb e) (N c) -> kc c e = 1.
  Proof.
    intros Ic I. destruct (nrm_simple c Ic) as [S1 S2]. pose proof (cnt_nodup _ (sa e, sb e) (simple_edges g F1 L1 _ S1)) as C1. pose proof (proj2 (cnt_in _ _) I) as C2.
    pose proof (simple_no_flip g F1 L1 _ _ S1 S2 I) as C3. unfold flip in C3. cbn [fst snd] in C3. rewrite <- cnt_in in C3. pose proof (cnt_nonneg (nrm c) (sb e, sa e)). unfold ke. lia.
  Qed.
  Lemma kc_r c e : In c cs -> In (sb e, sa e) (N c) -> kc c e = -1.
  Proof.
    intros Ic I. destruct (nrm_simple c Ic) as [S1 S2]. pose proof (cnt_nodup _ (sb e, sa e) (simple_edges g F1 L1 _ S1)) as C1. pose proof (proj2 (cnt_in _ _) I) as C2.
    pose proof (simple_no_flip g F1 L1 _ _ S1 S2 I) as C3. unfold flip in C3. cbn [fst snd] in C3. rewrite <- cnt_in in C3. pose proof (cnt_nonneg (nrm c) (sa e, sb e)). unfold ke. lia.
  Qed.
  Lemma kc_supp c e : In e ges -> kc c e <> 0 -> exists d, In d (N c) /\ us d = e.
  Proof.
    intros Ie K. unfold ke in K. pose proof (wf_ges e Ie) as W. destruct (Z_lt_le_dec 0 (cnt (nrm c) (sa e, sb e))) as [X|X].
    - apply cnt_in in X. exists (sa e, sb e). split; auto. apply us_l; auto.
    - pose proof (cnt_nonneg (nrm c) (sa e, sb e)). pose proof (cnt_nonneg (nrm c) (sb e, sa e)). assert (Y : 0 < cnt (nrm c) (sb e, sa e)) by lia. apply cnt_in in Y. exists (sb e, sa e). split; auto. apply us_r; auto.
  Qed.
  Lemma kc_supported c : In c cs -> supported (kc c).
  Proof. intro I. split; [apply Hb; auto|]. intros e Ie K. destruct (kc_supp c e Ie K) as (d & Id & E). exists c, d. auto. Qed.
  Lemma side_val k e : In e ges -> balanced (ch k) -> (exists q, wind (ch k) q = top k e) /\ (exists q, wind (ch k) q = bot k e).
  Proof. intros Ie B. apply in_seg in Ie as (i & V & ->). apply (side_pts g P); auto. Qed.
  Lemma edge_ends c d : In d (edges c) -> In (fst d) c /\ In (snd d) c.
  Proof. intro I. apply (SliceLoops.edges_nth g F1 L1) in I as (a & La & E1 & E2). split; eapply nth_error_In; eauto. Qed.

  (** ** the anchor of a hole: the left-bottom edge has the region below it *)
  Definition below_all (h : list pt) (u : xseg) : Prop := forall d, In d (N h) -> ~ pt_lt (sa (us d)) (sa u) /\
    (sa (us d) = sa u -> us d = u \/ 0 < vx (vsub (sb u) (sa u)) (vsub (sb (us d)) (sa (us d)))).
  Lemma hole_anchor h : In h holes -> exists u, left_bottom_segment h = Some u /\ In u ges /\ px (sa u) < px (sb u) /\ In (sb u, sa u) (N h) /\ below_all h u.
  Proof.
    intro Ih. assert (Ic : In h cs) by (apply in_or_app; auto). destruct (Hs h Ic) as [S1 S2]. destruct (nrm_simple h Ic) as [S3 S4].
    destruct (left_bottom_spec h S1 S2) as (a & b0 & b1 & Mn & E0 & E1 & Nb & LB).
    assert (XY : exists x y, In (a, x) (N h) /\ In (y, a) (N h) /\ x <> y /\ (x = b0 /\ y = b1 \/ x = b1 /\ y = b0)).
    { unfold nrm. destruct clockwise; [|exists b0, b1; auto]. exists b1, b0.
      assert (Q : forall p q, In (p, q) (edges h) -> In (q, p) (edges (rev h))).
      { intros p q I. apply (Permutation_in _ (Permutation_sym (BindSweep.edges_rev h))). apply in_map_iff. exists (p, q). split; auto. }
      split; auto. split; auto. }
    destruct XY as (x & y & Ex & Ey & Nxy & Bxy). clear E0 E1.
    assert (Mn' : forall p, In p (nrm h) -> ~ pt_lt p a) by (intros p I; apply Mn, in_nrm; auto).
    assert (Nax : forall z, In z (nrm h) -> z <> a -> pt_lt a z).
    { intros z I Nz. destruct (pt_total a z) as [[L|L]|L]; auto; [congruence|]. destruct (Mn' z I L). }
    assert (Ndeg : forall p q, In (p, q) (N h) -> p <> q).
    { intros p q I. pose proof (Hes h _ Ic I) as W. apply wf_ges in W. unfold us in W. cbn [fst snd] in W. intros ->. destruct (pt_ltb q q); unfold wf_xseg in W; cbn [sa sb] in W; exact (pt_lt_irrefl _ W). }
    assert (Lx : pt_lt a x) by (apply Nax; [apply (edge_ends _ _ Ex)|apply not_eq_sym, Ndeg; auto]).
    assert (Ly : pt_lt a y) by (apply Nax; [apply (edge_ends _ _ Ey)|apply Ndeg; auto]).
    assert (Ux : us (a, x) = XS a x) by (apply (us_l (XS a x)); exact Lx). assert (Uy : us (y, a) = XS a y) by (apply (us_r (XS a y)); exact Ly).
    assert (Ix : In (XS a x) ges) by (rewrite <- Ux; eapply Hes; eauto). assert (Iy : In (XS a y) ges) by (rewrite <- Uy; eapply Hes; eauto).
    assert (Only : forall d, In d (N h) -> sa (us d) = a -> d = (a, x) \/ d = (y, a)).
    { intros d I E. destruct (us_cases d) as [[Ed _]|[Ed _]]; rewrite E in Ed.
      - left. rewrite Ed. apply (SliceLoops.edges_nth g F1 L1) in I as (i & Li & I1 & I2). apply (SliceLoops.edges_nth g F1 L1) in Ex as (j & Lj & J1 & J2). rewrite Ed in I1, I2. cbn [fst snd] in *.
        assert (i = j) by (apply (proj1 (NoDup_nth_error _) S3); congruence). subst j. congruence.
      - right. rewrite Ed. apply (SliceLoops.edges_nth g F1 L1) in I as (i & Li & I1 & I2). apply (SliceLoops.edges_nth g F1 L1) in Ey as (j & Lj & J1 & J2). rewrite Ed in I1, I2. cbn [fst snd] in *.
        assert (Q : (S i mod length (nrm h) = S j mod length (nrm h))%nat) by (apply (proj1 (NoDup_nth_error _) S3); [apply nth_error_Some; congruence|congruence]).
        assert (i = j); [|subst j; congruence].
        set (n := length (nrm h)) in *. assert (Mi : forall m, (m < n)%nat -> (S m mod n = if S m =? n then 0 else S m)%nat).
        { intros m Lm. destruct (Nat.eqb_spec (S m) n) as [->|]; [apply Nat.mod_same; lia|apply Nat.mod_small; lia]. }
        rewrite !Mi in Q by auto. destruct (Nat.eqb_spec (S i) n), (Nat.eqb_spec (S j) n); lia. }
    assert (Dx : dir a (XS a x) = vsub x a) by (unfold dir, other; cbn [sa sb]; rewrite pt_eqb_refl; auto).
    assert (Dy : dir a (XS a y) = vsub y a) by (unfold dir, other; cbn [sa sb]; rewrite pt_eqb_refl; auto).
    assert (Lpx : lexpos (vsub x a)) by (unfold lexpos, vsub; cbn [fst snd]; unfold pt_lt in Lx; lia). assert (Lpy : lexpos (vsub y a)) by (unfold lexpos, vsub; cbn [fst snd]; unfold pt_lt in Ly; lia).
    assert (Nz : vx (vsub y a) (vsub x a) <> 0).
    { intro Z. apply (dir_sep ges A a (XS a y) (XS a x) Iy Ix); [congruence|left; auto|left; auto|]. rewrite Dx, Dy. split; auto. apply lex_dot; auto. }
    (* the upper of the two edges has nothing above *)
    assert (Top : forall z w, (z = x /\ w = y \/ z = y /\ w = x) -> vx (vsub z a) (vsub w a) <= 0 -> top (kc h) (XS a z) = 0).
    { intros z w C V. assert (Iz : In (XS a z) ges) by (destruct C as [[-> ->]|[-> ->]]; auto). apply (start_top ges A); auto.
      - intros e Ie K L. destruct (kc_supp h e Ie K) as (d & Id & <-). apply (Mn' (sa (us d))); auto. destruct (edge_ends _ _ Id) as [I1 I2]. destruct (us_cases d) as [[Ed _]|[Ed _]]; [replace (sa (us d)) with (fst d) by (rewrite Ed at 1; auto)|replace (sa (us d)) with (snd d) by (rewrite Ed at 1; auto)]; auto.
      - intros e Ie K E Ne. cbn [sa] in *. destruct (kc_supp h e Ie K) as (d & Id & Ed). rewrite <- Ed in E. apply (Only d Id) in E as [E|E]; rewrite E in Ed; rewrite ?Ux, ?Uy in Ed; subst e;
          destruct C as [[-> ->]|[-> ->]]; try congruence; rewrite ?Dx, ?Dy; auto. }
    assert (Vy : 0 < vx (vsub y a) (vsub x a)).
    { destruct (Z_lt_le_dec 0 (vx (vsub y a) (vsub x a))) as [|V]; auto. exfalso. pose proof (Top y x ltac:(auto) V) as T. rewrite tb in T.
      rewrite (kc_r h (XS a y) Ic) in T by exact Ey. destruct (side_val (kc h) (XS a y) Iy (Hb h Ic)) as [_ [q Q]]. destruct (Hh h q Ih); lia. }
    exists (XS a y). split.
    { rewrite LB. f_equal. unfold is_under_segment. cbn [sa sb]. rewrite (proj2 (pt_cmp_eq a a) eq_refl). unfold is_clockwise.
      assert (Cr : forall p q, cross3 a p q = vx (vsub p a) (vsub q a)) by (intros; reflexivity). rewrite Cr.
      destruct Bxy as [[-> ->]|[-> ->]].
      - destruct (Z.ltb_spec (vx (vsub b1 a) (vsub b0 a)) 0); [lia|auto].
      - rewrite vx_anti. destruct (Z.ltb_spec (- vx (vsub b0 a) (vsub b1 a)) 0); [auto|lia]. }
    split; auto. cbn [sa sb]. split.
    { assert (0 < fst (vsub y a)); [|unfold vsub in *; cbn [fst] in *; lia]. apply (lex_nv (vsub x a)); auto. rewrite vx_anti. lia. }
    split; auto. intros d Id. split.
    - apply Mn'. destruct (edge_ends _ _ Id) as [I1 I2]. destruct (us_cases d) as [[Ed _]|[Ed _]]; [replace (sa (us d)) with (fst d) by (rewrite Ed at 1; auto)|replace (sa (us d)) with (snd d) by (rewrite Ed at 1; auto)]; auto.
    - intro E. cbn [sa sb] in *. destruct (Only d Id E) as [->| ->]; rewrite ?Ux, ?Uy; cbn [sa sb]; auto.
  Qed.

  (** ** the edge under an anchor *)
  Definition same (c c' : list pt) : Prop := forall k, supported k -> forall d d', In d (N c) -> In d' (N c') -> lv k d = lv k d'.
  Definition prb (e : xseg) : bool := if in_dec xseg_eq_dec e (map us (flat_map (fun c => N c) cs)) then true else false.
  Lemma prb_iff e : prb e = true <-> usedE e.
  Proof.
    unfold prb, usedE. destruct (in_dec _ _ _) as [I|I]; rewrite in_map_iff in I; split; auto; try discriminate.
    - intros _. destruct I as (d & E & I). apply in_flat_map in I as (c & Ic & Id). eauto.
    - intros (c & d & Ic & Id & E). exfalso. apply I. exists d. split; auto. apply in_flat_map. eauto.
  Qed.
  Definition anl (e u : xseg) : Prop := pt_lt (sa e) (sa u) \/ (sa e = sa u /\ 0 < vx (vsub (sb e) (sa e)) (vsub (sb u) (sa u))).
  Lemma kS_floor e : In e ges -> kS e = zsum (fun c => cnt (nrm c) (sa e, sb e)) cs - zsum (fun c => cnt (nrm c) (sb e, sa e)) cs.
  Proof. intros _. unfold kS, ke. rewrite zsum_minus. auto. Qed.
  Lemma cnt_pos l d : 0 < zsum (fun c => cnt (nrm c) d) l -> exists c, In c l /\ In d (N c).
  Proof.
    induction l as [|c l IH]; [rewrite zsum_nil; lia|]. rewrite zsum_cons. intro H. destruct (Z_lt_le_dec 0 (cnt (nrm c) d)) as [X|X].
    - exists c. split; [left; auto|]. apply cnt_in. auto.
    - pose proof (cnt_nonneg (nrm c) d). destruct IH as (c' & I & H'); [lia|]. exists c'. split; [right; auto|auto].
  Qed.
  Lemma cnt_pos' l d c : In c l -> In d (N c) -> 0 < zsum (fun c => cnt (nrm c) d) l.
  Proof.
    induction l as [|x l IH]; intros I J; [destruct I|]. rewrite zsum_cons.
    assert (Nn : 0 <= zsum (fun c0 => cnt (nrm c0) d) l) by (clear; induction l as [|c l IH]; [rewrite zsum_nil; lia|]; rewrite zsum_cons; pose proof (cnt_nonneg (nrm c) d); lia).
    pose proof (cnt_nonneg (nrm x) d). destruct I as [->|I]; [apply cnt_in in J; lia|]. specialize (IH I J). lia.
  Qed.
  Lemma anchor_floor h u : In h cs -> In u ges -> px (sa u) < px (sb u) -> In (sb u, sa u) (N h) ->
    exists e0 c', In c' cs /\ In (sa e0, sb e0) (N c') /\ In e0 ges /\ spans e0 (qx (sa u)) = true /\ lt_at (qx (sa u)) e0 u /\
      (forall y, In y ges -> usedE y -> spans y (qx (sa u)) = true -> lt_at (qx (sa u)) y u -> y <> e0 -> lt_at (qx (sa u)) y e0) /\
      anl e0 u /\ same h c'.
  Proof.
    intros Ih Iu Fl Eu. assert (Nu : nonvert u) by (unfold nonvert; apply qlt_z; auto).
    destruct (highest_below ges A prb u Iu Nu) as [H|(e0 & Ie & Pe & Se & Le & Mx & Bt)].
    { exfalso. pose proof (H1 h _ Ih Eu) as X. rewrite lv_r in X by auto. rewrite (H kS) in X; [discriminate|]. intros y Iy K. apply prb_iff. apply HS; auto. }
    assert (BT : forall k, supported k -> bot k u = top k e0).
    { intros k [B S]. apply Bt; auto. intros y Iy K. apply prb_iff. auto. }
    assert (Fl0 : exists c', In c' cs /\ In (sa e0, sb e0) (N c')).
    { apply cnt_pos. apply prb_iff in Pe as (c & d & Ic & Id & Ed). destruct (us_cases d) as [[X _]|[X _]]; rewrite Ed in X; rewrite X in Id.
      - eapply cnt_pos'; eauto.
      - pose proof (H1 c _ Ic Id) as V. rewrite lv_r in V by auto. pose proof (BT kS HS) as T. pose proof (H1 h _ Ih Eu) as U. rewrite lv_r in U by auto. rewrite U, tb, V in T.
        pose proof (kS_floor e0 Ie) as K. pose proof (cnt_pos' cs (sb e0, sa e0) c Ic Id). lia. }
    destruct Fl0 as (c' & Ic & Id). exists e0, c'. split; auto. split; auto. split; auto. split; auto. split; auto. split; [|split].
    - intros y Iy Uy Sy Ly Ny. apply Mx; auto. apply prb_iff. auto.
    - apply in_seg in Ie as (i & Vi & ->). apply in_seg in Iu as (j & Vj & ->). exact (Nest.under_start g P i j Vi Vj Se Nu Le).
    - intros k S d d' Jd Jd'. rewrite (Hc h k Ih S d _ Jd Eu), (Hc c' k Ic S d' _ Jd' Id), lv_r, lv_l by auto. auto.
  Qed.
  (** a hole below an anchor starts before it *)
  Lemma anchor_before h uh e0 u : below_all h uh -> In (sa e0, sb e0) (N h) -> In e0 ges -> In u ges -> In uh ges -> anl e0 u -> anl uh u.
  Proof.
    intros B I Ie Iu Iuh Le. destruct (B _ I) as [B1 B2]. rewrite us_l in B1, B2 by (apply wf_ges; auto).
    assert (Lp : forall e, In e ges -> lexpos (vsub (sb e) (sa e))).
    { intros e J. pose proof (wf_ges e J) as W. unfold wf_xseg, pt_lt in W. unfold lexpos, vsub. cbn [fst snd]. lia. }
    destruct (pt_total (sa uh) (sa e0)) as [[L|E]|L]; [| |contradiction].
    - left. destruct Le as [Le|[Le _]]; [eapply pt_lt_trans; eauto|rewrite <- Le; auto].
    - destruct Le as [Le|[Le V]]; [left; rewrite E; auto|]. right. split; [congruence|]. destruct (B2 (eq_sym E)) as [X|X]; [subst e0; auto|].
      apply (vx_trans _ (vsub (sb e0) (sa e0))); auto.
  Qed.

  (** ** the segments *)
  Notation segsof := (Nest.segsof clockwise).
  Lemma other_edges c : Permutation (edges (if clockwise then c else rev c)) (map BindSweep.swap (N c)).
  Proof.
    unfold nrm. destruct clockwise; [|apply BindSweep.edges_rev]. rewrite (BindSweep.edges_rev c), map_map. rewrite (map_ext _ (fun d => d)) by (intros [p q]; reflexivity). rewrite map_id. auto.
  Qed.
  Definition keeps (xm xM : Z) (d : pt * pt) : bool := (px (fst d) <? px (snd d)) && (xm <? px (snd d)) && (px (fst d) <=? xM).
  Definition xs (d : pt * pt) : xseg := XS (fst d) (snd d).
  Lemma segs_perm h xm xM ix c : Permutation (segsof h xm xM ix c) (map (fun d => IdS h ix (xs d)) (filter (keeps xm xM) (N c))).
  Proof.
    unfold Nest.segsof. rewrite (Permutation_flat_map _ (other_edges c)). induction (N c) as [|d l IH]; [constructor|]. cbn [map flat_map filter]. rewrite IH.
    unfold put_id, keeps, BindSweep.swap. cbn [fst snd]. destruct (_ && _ && _); auto.
  Qed.
  Lemma segs_in h xm xM ix c y : In y (segsof h xm xM ix c) <-> exists d, In d (N c) /\ keeps xm xM d = true /\ y = IdS h ix (xs d).
  Proof.
    split.
    - intro I. apply (Permutation_in _ (segs_perm h xm xM ix c)) in I. apply in_map_iff in I as (d & <- & I). apply filter_In in I as [I K]. eauto.
    - intros (d & I & K & ->). apply (Permutation_in _ (Permutation_sym (segs_perm h xm xM ix c))). apply (in_map (fun d => IdS h ix (xs d))). apply filter_In. auto.
  Qed.
  Definition segsall (h : bool) (xm xM : Z) (l : list (list pt)) : list idseg := flat_map (fun ic => segsof h xm xM (fst ic) (snd ic)) (enum l).
  Lemma segsall_in h xm xM l y : In y (segsall h xm xM l) <-> exists c d, nth_error l (id_ix y) = Some c /\ id_hole y = h /\ In d (N c) /\ keeps xm xM d = true /\ id_seg y = xs d.
  Proof.
    unfold segsall. rewrite in_flat_map. split.
    - intros ([ix c] & Ic & I). cbn [fst snd] in I. apply segs_in in I as (d & Id & K & ->). apply enum_nth in Ic. exists c, d. cbn [id_ix id_hole id_seg]. auto.
    - intros (c & d & Hn & Eh & Id & K & Es). exists (id_ix y, c). split; [apply enum_nth; auto|]. cbn [fst snd]. apply segs_in. exists d. split; auto. split; auto. destruct y; simpl in *; congruence.
  Qed.
  Lemma segsall_perm h xm xM l : Permutation (map id_seg (segsall h xm xM l)) (map xs (filter (keeps xm xM) (flat_map (fun c => N c) l))).
  Proof.
    unfold segsall. rewrite <- (enum_snd l) at 2. induction (enum l) as [|ic L IH]; [constructor|]. cbn [flat_map map]. rewrite map_app, filter_app, map_app, IH. apply Permutation_app_tail.
    rewrite (Permutation_map id_seg (segs_perm h xm xM (fst ic) (snd ic))), map_map. auto.
  Qed.
  Lemma segsall_nd xm xM : NoDup (map id_seg (segsall false xm xM outers ++ segsall true xm xM holes)).
  Proof.
    rewrite map_app. eapply Permutation_NoDup; [apply Permutation_sym, Permutation_app; apply segsall_perm|]. rewrite <- map_app, <- filter_app, <- flat_map_app.
    apply FinFun.Injective_map_NoDup; [|apply NoDup_filter; exact Hnd]. intros [p q] [p' q'] E. unfold xs in E. cbn [fst snd] in E. congruence.
  Qed.
  Lemma keeps_floor xm xM d c : In c cs -> In d (N c) -> keeps xm xM d = true -> xs d = us d /\ In (xs d) ges /\ usedE (xs d) /\ px (fst d) < px (snd d).
  Proof.
    intros Ic Id K. unfold keeps in K. apply andb_true_iff in K as [K _]. apply andb_true_iff in K as [K _]. apply Z.ltb_lt in K.
    assert (E : xs d = us d) by (unfold us; rewrite (proj2 (pt_ltb_lt _ _)); [auto|left; auto]). split; auto. rewrite E. split; [eapply Hes; eauto|]. split; auto. exists c, d. auto.
  Qed.

  (** ** the binding *)
  Definition belongs (ix k : nat) : Prop := exists h o, nth_error holes ix = Some h /\ nth_error outers k = Some o /\ same h o.
  Lemma in_outers c : In c outers -> In c cs. Proof. intro. apply in_or_app; auto. Qed.
  Lemma in_holes c : In c holes -> In c cs. Proof. intro. apply in_or_app; auto. Qed.
  Definition ub (h : list pt) : xseg := match left_bottom_segment h with Some u => u | None => XS (Pt 0 0) (Pt 0 0) end.
  Lemma ub_spec h : In h holes -> left_bottom_segment h = Some (ub h) /\ In (ub h) ges /\ px (sa (ub h)) < px (sb (ub h)) /\ In (sb (ub h), sa (ub h)) (N h) /\ below_all h (ub h).
  Proof. intro I. destruct (hole_anchor h I) as (u & E & R). unfold ub. rewrite E. auto. Qed.
  Definition an : list idseg := map (fun ih => IdS true (fst ih) (ub (snd ih))) (enum holes).
  Lemma an_all : all_some (map (fun ih => option_map (IdS true (fst ih)) (left_bottom_segment (snd ih))) (enum holes)) = Some an.
  Proof.
    unfold an. apply (all_some_map _ (fun ih => IdS true (fst ih) (ub (snd ih)))). intros [ix h] I. apply enum_nth, nth_error_In in I. cbn [fst snd]. destruct (ub_spec h I) as (-> & _). auto.
  Qed.
  Lemma an_in a : In a an <-> exists h, nth_error holes (id_ix a) = Some h /\ id_hole a = true /\ id_seg a = ub h.
  Proof.
    unfold an. rewrite in_map_iff. split.
    - intros ([ix h] & <- & I). apply enum_nth in I. cbn [fst snd id_ix id_hole id_seg]. eauto.
    - intros (h & Hn & E1 & E2). exists (id_ix a, h). cbn [fst snd]. split; [destruct a; simpl in *; congruence|]. apply enum_nth. auto.
  Qed.
  Lemma an_len : length an = length holes.
  Proof. unfold an. rewrite map_length. rewrite <- (map_length snd), enum_snd. auto. Qed.
  Lemma bind_holes dbg : holes <> [] -> exists out par, scan_join dbg (map (fun c => [c]) outers) holes (isort a_angle_leb an) clockwise = Some out /\
    assembled outers holes par out /\ forall ix k, nth_error par ix = Some k -> belongs ix k.
  Proof.
    intro Nh. set (an' := isort a_angle_leb an). assert (Pa : Permutation an' an) by apply isort_perm.
    assert (Fa : forall a, In a an -> flat a).
    { intros a I. apply an_in in I as (h & Hn & _ & Es). unfold flat. rewrite Es. apply ub_spec. eapply nth_error_In; eauto. }
    assert (Sa' : StronglySorted (fun s t => a_angle_leb s t = true) an').
    { apply (isort_sorted_on a_angle_leb flat); [intros; apply a_angle_total; auto|intros x y z; apply a_angle_trans|]. apply Forall_forall. auto. }
    assert (An' : forall a, In a an' -> exists h, nth_error holes (id_ix a) = Some h /\ id_hole a = true /\ id_seg a = ub h) by (intros a I; apply an_in; apply (Permutation_in _ Pa); auto).
    unfold scan_join. destruct an' as [|first rest] eqn:Ean.
    { exfalso. apply Permutation_nil in Pa. pose proof an_len as L. rewrite Pa in L. destruct holes; [congruence|discriminate]. }
    rewrite <- Ean in *.
    assert (Al : all_some (map (@hd_error (list pt)) (map (fun c => [c]) outers)) = Some outers).
    { rewrite map_map. rewrite (all_some_map _ (fun c => c)); [rewrite map_id; auto|]. auto. }
    rewrite Al. set (xm := px (sa (id_seg first))). set (xM := px (sa (id_seg (last an' first)))).
    assert (Xm : forall a, In a an' -> xm <= px (sa (id_seg a)) /\ px (sa (id_seg a)) <= xM).
    { intros a I. split.
      - apply a_angle_px. rewrite Ean in I, Sa'. inversion Sa' as [|? ? _ F]; subst. destruct I as [->|I]; [apply a_angle_refl|]. rewrite Forall_forall in F. auto.
      - apply a_angle_px. apply (last_max (fun s t => a_angle_leb s t = true)); auto. apply a_angle_refl. }
    assert (Ne : forall c, In c cs -> c <> []) by (intros c Ic E; destruct (Hs c Ic) as [_ L]; rewrite E in L; simpl in L; lia).
    rewrite (id_contours_some false xm xM clockwise outers) by (intros c Ic; apply Ne, in_outers; auto). rewrite (id_contours_some true xm xM clockwise holes) by (intros c Ic; apply Ne, in_holes; auto).
    change (flat_map (fun ic => flat_map (put_id false (fst ic) xm xM) (edges (if clockwise then snd ic else rev (snd ic)))) (enum outers)) with (segsall false xm xM outers).
    change (flat_map (fun ic => flat_map (put_id true (fst ic) xm xM) (edges (if clockwise then snd ic else rev (snd ic)))) (enum holes)) with (segsall true xm xM holes).
    rewrite map_length. set (segs0 := isort a_angle_leb (segsall false xm xM outers ++ segsall true xm xM holes)).
    assert (Ps : Permutation segs0 (segsall false xm xM outers ++ segsall true xm xM holes)) by apply isort_perm.
    assert (Nd0 : NoDup (map id_seg segs0)) by (eapply Permutation_NoDup; [apply Permutation_map, Permutation_sym, Ps|apply segsall_nd]).
    assert (Sin : forall y, In y segs0 <-> exists c d, nth_error (if id_hole y then holes else outers) (id_ix y) = Some c /\ In c cs /\ In d (N c) /\ keeps xm xM d = true /\ id_seg y = xs d).
    { intro y. split.
      - intro I. apply (Permutation_in _ Ps) in I. apply in_app_iff in I as [I|I]; apply segsall_in in I as (c & d & Hn & -> & Id & K & Es); exists c, d; split; auto; split; auto; [apply in_outers|apply in_holes]; eapply nth_error_In; eauto.
      - intros (c & d & Hn & Ic & Id & K & Es). apply (Permutation_in _ (Permutation_sym Ps)). apply in_or_app. destruct (id_hole y) eqn:Hy; [right|left]; apply segsall_in; exists c, d; auto. }
    assert (Fs : forall y, In y segs0 -> In (id_seg y) ges /\ flat y).
    { intros y I. apply Sin in I as (c & d & _ & Ic & Id & K & Es). destruct (keeps_floor xm xM d c Ic Id K) as (_ & I1 & _ & I2). unfold flat. rewrite Es. auto. }
    set (init := if dbg then None else Some O). unfold bind. fold init.
    assert (AE : forall a, In a an' -> exists e, under_edge (fun s => In s ges) segs0 a e /\
      (if id_hole e then (exists a', In a' an' /\ id_ix a' = id_ix e /\ a_angle_leb a a' = false) /\ (forall k, belongs (id_ix e) k -> belongs (id_ix a) k) else belongs (id_ix a) (id_ix e))).
    { intros a Ia. destruct (An' a Ia) as (h & Hn & _ & Es). pose proof (nth_error_In _ _ Hn) as Ih. destruct (ub_spec h Ih) as (_ & Iu & Fu & Eu & Bu). set (u := ub h) in *.
      destruct (anchor_floor h u (in_holes h Ih) Iu Fu Eu) as (e0 & c' & Ic & Id & Ie & Se & Le & Mx & Ane & Sm).
      assert (K0 : keeps xm xM (sa e0, sb e0) = true).
      { destruct (Xm a Ia) as [X1 X2]. rewrite Es in X1, X2. apply spans_iff in Se as [S1 S2]. assert (T1 : px (sa e0) <= px (sa u)) by (apply qz_le; exact S1). assert (T2 : px (sa u) < px (sb e0)) by (apply (proj1 (qz_lt _ _)); exact S2).
        unfold keeps. cbn [fst snd]. rewrite (proj2 (Z.ltb_lt _ _)), (proj2 (Z.ltb_lt _ _)), (proj2 (Z.leb_le _ _)) by lia. auto. }
      assert (Ow : exists hb k, nth_error (if hb : bool then holes else outers) k = Some c').
      { apply in_app_iff in Ic as [I|I]; apply In_nth_error in I as (k & Hk); [exists false, k|exists true, k]; auto. }
      destruct Ow as (hb & k & Hk). set (y0 := IdS hb k e0). assert (Xe : xs (sa e0, sb e0) = e0) by (destruct e0; auto).
      assert (Iy : In y0 segs0) by (apply Sin; exists c', (sa e0, sb e0); unfold y0; cbn [id_hole id_ix id_seg]; auto).
      exists y0. split.
      - constructor; unfold y0; cbn [id_seg]; rewrite ?Es; auto.
        + apply a_angle_iff. cbn [id_seg]. rewrite Es. destruct Ane as [X|[X1 X2]]; auto. right. split; auto. unfold turn. cbn [id_seg]. rewrite Es. lia.
        + split; auto. unfold flat. rewrite Es. auto.
        + intros y Jy Sy Ly Ny. pose proof Jy as Jy0. apply Sin in Jy as (c & d & _ & Jc & Jd & K & Ey). destruct (keeps_floor xm xM d c Jc Jd K) as (_ & I1 & I2 & _). rewrite Ey in *. apply Mx; auto.
          intro X. apply Ny. apply (BindSweep.id_inj segs0 Nd0); auto. rewrite Ey. auto.
      - unfold y0. cbn [id_hole id_ix]. destruct hb.
        + pose proof (nth_error_In _ _ Hk) as Ij. destruct (ub_spec c' Ij) as (_ & Iuj & _ & _ & Bj). pose proof (anchor_before c' (ub c') e0 u Bj Id Ie Iu Iuj Ane) as Alt. split.
          * exists (IdS true k (ub c')). split; [apply (Permutation_in _ (Permutation_sym Pa)); apply an_in; exists c'; cbn [id_hole id_ix id_seg]; auto|]. split; auto.
            destruct (a_angle_leb a (IdS true k (ub c'))) eqn:Lb; auto. exfalso. apply a_angle_iff in Lb. pose proof (turn_anti a (IdS true k (ub c'))) as Tn. unfold turn in Lb, Tn. cbn [id_seg] in Lb, Tn. rewrite Es in Lb, Tn. unfold anl in Alt.
            destruct Alt as [X|[X1 X2]], Lb as [Y|[Y1 Y2]].
            -- eapply pt_lt_irrefl. eapply pt_lt_trans; eauto.
            -- rewrite Y1 in X. eapply pt_lt_irrefl; eauto.
            -- rewrite X1 in Y. eapply pt_lt_irrefl; eauto.
            -- lia.
          * intros kk (h' & o & H1' & H2' & H3'). assert (h' = c') by congruence. subst h'. exists h, o. split; auto. split; auto.
            intros kk' S d d' J J'. rewrite (Sm kk' S d (sa e0, sb e0) J Id). apply (H3' kk' S); auto.
        + exists h, c'. auto. }
    destruct (bind_ok (fun s => In s ges)) with (segs0 := segs0) (nO := length outers) (R := belongs) (anchors0 := an') (anchors := an') (done := @nil idseg) (segs := segs0) (fed := @nil idseg)
      (scan := @nil (xseg * owner)) (t := xm) (parents := repeat init (length an')) as (parents & Ep & Lp & Hp).
    - apply (am_planar _ A).
    - exact Fs.
    - exact Nd0.
    - apply (isort_sorted_on a_angle_leb flat); [intros; apply a_angle_total; auto|intros x y z; apply a_angle_trans|].
      apply Forall_forall. intros y I. apply Fs. apply (Permutation_in _ (Permutation_sym Ps)). auto.
    - intros ix k (h & o & _ & Hk & _). apply nth_error_Some. congruence.
    - exact Sa'.
    - intros a a' I I' E. destruct (An' a I) as (h & X1 & X2 & X3). destruct (An' a' I') as (h' & Y1 & Y2 & Y3). rewrite E in X1. destruct a, a'. simpl in *. congruence.
    - exact AE.
    - reflexivity.
    - reflexivity.
    - constructor; [constructor|intros e []|intros y []].
    - intros a I. apply Xm; auto.
    - intros a I. rewrite repeat_length. rewrite (Permutation_length Pa), an_len. destruct (An' a I) as (h & X & _). apply nth_error_Some. congruence.
    - intros a [].
    - rewrite Ep. rewrite repeat_length, (Permutation_length Pa), an_len in Lp.
      assert (Nth : forall ix x, nth_error parents ix = Some x -> exists k, x = Some k /\ belongs ix k).
      { intros ix x E. assert (L : (ix < length holes)%nat) by (rewrite <- Lp; apply nth_error_Some; congruence).
        destruct (nth_error holes ix) as [h|] eqn:Ek; [|apply nth_error_None in Ek; lia]. assert (Ia : In (IdS true ix (ub h)) an') by (apply (Permutation_in _ (Permutation_sym Pa)); apply an_in; exists h; auto).
        destruct (Hp _ Ia) as (k & Nk & Bk). cbn [id_ix] in *. exists k. split; auto. congruence. }
      destruct (all_somes parents) as (par & Epar); [intros i x E; destruct (Nth i x E) as (k & -> & _); eauto|].
      assert (Bel : forall ix k, nth_error par ix = Some k -> belongs ix k).
      { intros ix k E. destruct (Nth ix (Some k)) as (k' & Ek & B); [rewrite Epar, nth_error_map, E; auto|]. congruence. }
      destruct (push_some holes par (map (fun c => [c]) outers)) as (out & Eout).
      + rewrite <- Lp, Epar, map_length. auto.
      + apply Forall_forall. intros k I. apply In_nth_error in I as (ix & E). destruct (Bel ix k E) as (h & o & _ & Hk & _). rewrite map_length. apply nth_error_Some. congruence.
      + rewrite <- Epar in Eout. exists out. destruct (push_assembled _ _ _ _ Eout) as (par' & As & rest' & Er). exists par'. split; auto. split; auto.
        intros ix k E. apply Bel. assert (X : nth_error parents ix = Some (Some k)).
        { rewrite Er, nth_error_app1; [rewrite nth_error_map, E; auto|rewrite map_length; apply nth_error_Some; congruence]. }
        rewrite Epar, nth_error_map in X. destruct (nth_error par ix); simpl in X; congruence.
  Qed.
  Lemma join_holes dbg : exists out par, join_unsorted_holes dbg (map (fun c => [c]) outers) holes clockwise = Some out /\
    assembled outers holes par out /\ forall ix k, nth_error par ix = Some k -> belongs ix k.
  Proof.
    apply (join_holes_aux dbg clockwise outers holes belongs an an_all). apply bind_holes.
  Qed.

  (** *** one shape: an outer contour and its holes *)
  Lemma xtop_left (l : list xseg) : l <> [] -> (forall x, In x l -> In x ges) ->
    exists t, In t l /\ forall x, In x l -> ~ pt_lt (sa x) (sa t) /\ (sa x = sa t -> vx (vsub (sb t) (sa t)) (vsub (sb x) (sa x)) <= 0).
  Proof.
    intros Ne Il. assert (X : exists il, map (seg g) il = l /\ forall i, In i il -> valid g i).
    { clear Ne. induction l as [|x l IH]; [exists []; split; auto; intros i []|]. destruct IH as (il & E & V); [intros; apply Il; right; auto|].
      destruct (in_seg g x (Il x (or_introl eq_refl))) as (i & Vi & ->). exists (i :: il). split; [cbn [map]; congruence|]. intros j [<-|I]; auto. }
    destruct X as (il & E & V). destruct (top_left g P F1 L1 il) as (t & It & Mx); auto; [intros ->; simpl in E; congruence|].
    exists (seg g t). split; [rewrite <- E; apply in_map; auto|]. intros x Ix. rewrite <- E in Ix. apply in_map_iff in Ix as (j & <- & Ij). apply (Mx j Ij).
  Qed.
  Definition ksh (sh : list (list pt)) (e : xseg) : Z := zsum (fun c => kc c e) sh.
  Lemma ksh_supported sh : incl sh cs -> supported (ksh sh).
  Proof.
    intro I. induction sh as [|c sh IH].
    - split; [|intros e _ X; exfalso; apply X; reflexivity]. intro v. unfold boundary, SectorLemma.ch, ksh. rewrite zsum_map. apply zsum_zero. intros. cbn [fst snd]. rewrite zsum_nil. lia.
    - destruct IH as [B S]; [intros x Hx; apply I; right; auto|]. destruct (kc_supported c (I c (or_introl eq_refl))) as [B' S']. split.
      + apply (balanced_lin ges (ksh (c :: sh)) (ksh sh) (kc c) 1); auto. intros e _. unfold ksh. rewrite zsum_cons. lia.
      + intros e Ie Ne. unfold ksh in Ne. rewrite zsum_cons in Ne. destruct (Z.eq_dec (kc c e) 0) as [E|N]; [|apply S'; auto]. apply S; auto. unfold ksh. lia.
  Qed.
  Lemma ksh_cnt sh e : ksh sh e = zsum (fun c => cnt (nrm c) (sa e, sb e)) sh - zsum (fun c => cnt (nrm c) (sb e, sa e)) sh.
  Proof. unfold ksh. induction sh as [|c sh IH]; auto. rewrite !zsum_cons. unfold ke at 1. lia. Qed.
  Lemma cnt_list (l : list (pt * pt)) d : NoDup l -> 0 <= zsum (fun x => is_edge x d) l <= 1.
  Proof.
    induction l as [|x l IH]; intro H; [rewrite zsum_nil; lia|]. inversion H as [|? ? Nx Nl]; subst. rewrite zsum_cons. specialize (IH Nl). unfold is_edge at 1 3. destruct (edge_dec x d) as [->|X]; [|lia].
    rewrite zsum_zero; [lia|]. intros y I. unfold is_edge. destruct (edge_dec y d); congruence.
  Qed.
  Lemma cnt_flat sh d : NoDup (flat_map (fun c => N c) sh) -> 0 <= zsum (fun c => cnt (nrm c) d) sh <= 1.
  Proof. intro H. apply (cnt_list _ d) in H. rewrite zsum_flat_map in H. exact H. Qed.
  Lemma cnt_zero sh d : ~ In d (flat_map (fun c => N c) sh) -> zsum (fun c => cnt (nrm c) d) sh = 0.
  Proof.
    intro H. apply zsum_zero. intros c I. pose proof (cnt_nonneg (nrm c) d). destruct (Z.eq_dec (cnt (nrm c) d) 0); auto. exfalso. apply H. apply in_flat_map. exists c. split; auto. apply cnt_in. lia.
  Qed.
  Lemma cnt_one sh d : NoDup (flat_map (fun c => N c) sh) -> In d (flat_map (fun c => N c) sh) -> zsum (fun c => cnt (nrm c) d) sh = 1.
  Proof.
    intros H I. pose proof (cnt_flat sh d H). apply in_flat_map in I as (c & Ic & Id). pose proof (cnt_pos' sh d c Ic Id). lia.
  Qed.
  Lemma N_nonempty c : In c cs -> exists d, In d (N c).
  Proof. intro I. destruct (nrm_simple c I) as [_ L]. assert (Le : length (N c) = length (nrm c)) by apply ContourResults.edges_length. destruct (N c) as [|d l]; [simpl in Le; lia|]. exists d. left. auto. Qed.
  Section Shape.
    Variables (o : list pt) (hs : list (list pt)).
    Notation sh := (o :: hs).
    Hypothesis Io : In o outers.
    Hypothesis Ih : forall h, In h hs -> In h holes /\ same h o.
    Hypothesis Nsh : NoDup (flat_map (fun c => N c) sh).
    Lemma sh_incl : incl sh cs.
    Proof. intros c [<-|I]; [apply in_outers; auto|]. apply in_holes. apply Ih. auto. Qed.
    Lemma sh_common k : supported k -> exists lam, forall d, In d (flat_map (fun c => N c) sh) -> lv k d = lam.
    Proof.
      intro Sk. destruct (N_nonempty o (in_outers _ Io)) as (d0 & I0). exists (lv k d0). intros d I. apply in_flat_map in I as (c & [<-|Ic] & Id).
      - apply (Hc o); auto. apply in_outers. auto.
      - destruct (Ih c Ic) as [_ Sm]. apply Sm; auto.
    Qed.
    Lemma outer_left d : In d (N o) -> lv (kc o) d = 1.
    Proof.
      intro I. pose proof (in_outers _ Io) as Ic. pose proof (Hes o d Ic I) as Ie. destruct (side_val (kc o) (us d) Ie (Hb o Ic)) as [(q1 & W1) (q2 & W2)].
      pose proof (Ho o q1 Io) as X1. pose proof (Ho o q2 Io) as X2. rewrite W1 in X1. rewrite W2 in X2. pose proof (tb (kc o) (us d)) as E.
      destruct (us_cases d) as [[Ed _]|[Ed _]].
      - rewrite Ed, lv_l by auto. rewrite Ed in I. rewrite (kc_l o (us d) Ic I) in E. lia.
      - rewrite Ed, lv_r by auto. rewrite Ed in I. rewrite (kc_r o (us d) Ic I) in E. lia.
    Qed.
    Lemma sh_outer d : In d (flat_map (fun c => N c) sh) -> lv (kc o) d = 1.
    Proof.
      intro I. destruct (sh_common (kc o) (kc_supported o (in_outers _ Io))) as (lam & Hl). rewrite (Hl d I). destruct (N_nonempty o (in_outers _ Io)) as (d0 & I0).
      rewrite <- (Hl d0), outer_left; auto. apply in_flat_map. exists o. split; auto. left. auto.
    Qed.
    Lemma sh_used e : In e ges -> ksh sh e <> 0 -> In (sa e, sb e) (flat_map (fun c => N c) sh) \/ In (sb e, sa e) (flat_map (fun c => N c) sh).
    Proof.
      intros Ie Ne. rewrite ksh_cnt in Ne. destruct (in_dec edge_dec (sa e, sb e) (flat_map (fun c => N c) sh)) as [|N1]; auto. destruct (in_dec edge_dec (sb e, sa e) (flat_map (fun c => N c) sh)) as [|N2]; auto.
      rewrite !cnt_zero in Ne by auto. lia.
    Qed.
    Lemma sh_ges d : In d (flat_map (fun c => N c) sh) -> In (us d) ges.
    Proof. intro I. apply in_flat_map in I as (c & Ic & Id). apply (Hes c d); auto. apply sh_incl. auto. Qed.
    Lemma shape_wind q : wind (ch (ksh sh)) q = 0 \/ wind (ch (ksh sh)) q = 1.
    Proof.
      pose proof (ksh_supported sh sh_incl) as Sk. destruct (sh_common _ Sk) as (lam & Hl). set (D := flat_map (fun c => N c) sh) in *.
      assert (L : lam = 1).
      { destruct (xtop_left (map us D)) as (t & It & Mx).
        - destruct (N_nonempty o (in_outers _ Io)) as (d0 & I0). intro X. assert (I : In (us d0) (map us D)) by (apply in_map; apply in_flat_map; exists o; split; auto; left; auto). rewrite X in I. destruct I.
        - intros x Ix. apply in_map_iff in Ix as (d & <- & Id). apply sh_ges. auto.
        - assert (St : forall k, balanced (ch k) -> (forall x, In x ges -> k x <> 0 -> In x (map us D)) -> top k t = 0).
          { intros k B Sp. apply in_map_iff in It as (d & Et & Id). assert (Ig : In t ges) by (rewrite <- Et; apply sh_ges; auto). apply (start_top ges A k t B Ig).
            - intros x Ix Nx Lt. apply (proj1 (Mx x (Sp x Ix Nx))). auto.
            - intros x Ix Nx Es _. pose proof (proj2 (Mx x (Sp x Ix Nx)) Es) as V. unfold SectorLemma.dir, SectorLemma.other. rewrite Es, pt_eqb_refl. rewrite Es in V. exact V. }
          pose proof (St (ksh sh) (proj1 Sk)) as T1. pose proof (St (kc o) (Hb o (in_outers _ Io))) as T2.
          assert (Sp : forall x, In x ges -> In (sa x, sb x) D \/ In (sb x, sa x) D -> In x (map us D)).
          { intros x Ix [I|I]; [rewrite <- (us_l x (wf_ges x Ix))|rewrite <- (us_r x (wf_ges x Ix))]; apply in_map; auto. }
          specialize (T1 (fun x Ix Nx => Sp x Ix (sh_used x Ix Nx))). specialize (T2 ltac:(intros x Ix Nx; destruct (kc_supp o x Ix Nx) as (d & Id & <-); apply in_map, in_flat_map; exists o; split; auto; left; auto)).
          apply in_map_iff in It as (d & Et & Id). assert (Ig : In t ges) by (rewrite <- Et; apply sh_ges; auto).
          assert (Nf : ~ In (sa t, sb t) D) by (intro I; pose proof (sh_outer _ I) as X; rewrite lv_l in X by auto; lia).
          assert (Ic : In (sb t, sa t) D) by (destruct (us_cases d) as [[Ed _]|[Ed _]]; rewrite Et in Ed; rewrite Ed in Id; [contradiction|auto]).
          pose proof (Hl _ Ic) as X. rewrite lv_r in X by auto. pose proof (tb (ksh sh) t) as Y. rewrite ksh_cnt, (cnt_zero sh (sa t, sb t)), (cnt_one sh (sb t, sa t)) in Y by auto. lia. }
      subst lam. destruct (highest ges A (fun e => negb (ksh sh e =? 0)) q) as [Z|(e & Ie & Pe & W)].
      - left. apply Z. intros y _ Ny. apply negb_true_iff, Z.eqb_neq. auto.
      - rewrite (W (ksh sh) (proj1 Sk)) by (intros y _ Ny; apply negb_true_iff, Z.eqb_neq; auto). apply negb_true_iff, Z.eqb_neq in Pe.
        destruct (in_dec edge_dec (sa e, sb e) D) as [I1|N1]; [right; rewrite <- (Hl _ I1), lv_l; auto|].
        destruct (sh_used e Ie Pe) as [I|I]; [contradiction|]. pose proof (Hl _ I) as X. rewrite lv_r in X by auto. pose proof (tb (ksh sh) e) as Y. pose proof (ksh_cnt sh e) as K. rewrite (cnt_zero sh (sa e, sb e)), (cnt_one sh (sb e, sa e)) in K by auto. left. lia.
    Qed.
  End Shape.
End Nest.
