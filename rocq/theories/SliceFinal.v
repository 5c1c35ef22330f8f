(** * Slicing: the pieces join into shapes that tile the region. *)
From Verif Require Import Base Spec QLib SegmProofs PlanarGeo PlanarSum FillProofs FillCorrect ModelFill ModelGraph GraphProofs ModelExtract ExtractProofs ContourResults Rotation NextLink MoveLemma SectorLemma Sides WalkSides Orient
  ModelBind BindProofs BindSweep Nest Properties03 Properties04 Properties05 AreaWind ModelSlice SliceNext SliceWalk SliceLoops SliceMain SliceNest SliceShapes.
From Coq Require Import Permutation.
Open Scope Z_scope.

Lemma nodup_l {X} (a b : list X) : NoDup (a ++ b) -> NoDup a.
Proof. induction a as [|x a IH]; intro H; [constructor|]. inversion H; subst. constructor; auto. intro I. apply H2. apply in_or_app. auto. Qed.
Lemma nodup_r {X} (a b : list X) : NoDup (a ++ b) -> NoDup b.
Proof. induction a as [|x a IH]; intro H; auto. inversion H; subst. auto. Qed.
Lemma combine_at {X Y} : forall (a : list X) (b : list Y) ix x y, nth_error (combine a b) ix = Some (x, y) -> nth_error a ix = Some x /\ nth_error b ix = Some y.
Proof. induction a as [|u a IH]; intros [|v b] [|ix] x y H; try discriminate; cbn [combine nth_error] in *; [injection H as -> ->; auto|]. apply IH. auto. Qed.
Lemma us_swap d : us (BindSweep.swap d) = us d.
Proof.
  destruct d as [p q]. unfold us, BindSweep.swap. cbn [fst snd]. destruct (pt_ltb p q) eqn:A, (pt_ltb q p) eqn:B; auto.
  - apply pt_ltb_lt in A. apply pt_ltb_lt in B. exfalso. eapply pt_lt_irrefl, pt_lt_trans; eauto.
  - apply pt_ltb_ge in A. apply pt_ltb_ge in B. destruct (pt_total p q) as [[|]|]; [tauto|subst; auto|tauto].
Qed.
Section Final.
  Variables (g : graph) (pts : list pt).
  Hypothesis G : graph_wf g pts.
  Hypothesis P : links_planar (g_links g).
  Hypothesis NDp : NoDup pts.
  Hypothesis Srt : forall i j, (i <= j)%nat -> valid g j -> ~ pt_lt (sa (seg g j)) (sa (seg g i)).
  Notation links := (g_links g).
  Notation valid := (valid g).
  Notation seg := (seg g).
  Notation ges := (ges g).
  Notation ch := (ch ges).
  Notation F0 := (slice_fills links).
  Notation A := (g_ambient g P).
  Variable kR : xseg -> Z.
  Hypothesis BR : balanced (ch kR).
  Hypothesis HT : forall i, valid i -> top ges kR (seg i) = bz (N.testbit (l_fill (lk g i)) 0) /\ bot ges kR (seg i) = bz (N.testbit (l_fill (lk g i)) 1).
  Variable R : qpt -> bool.
  Hypothesis HR : forall q, wind (ch kR) q = bz (R q).
  Variable cwo : list pt -> bool.
  Hypothesis Hcw : forall c : list pt, (area2 c < 0 -> cwo c = true) /\ (0 < area2 c -> cwo c = false).
  Variable clockwise : bool.
  Notation N c := (edges (nrm clockwise c)).
  Notation kc c := (ke (nrm clockwise c)).
  Notation from := (from_walk g pts clockwise).

  Lemma ed_lv k t : valid (fst t) -> lv g k (ed g pts true t) = dsv g k t /\ us (ed g pts true t) = seg (fst t).
  Proof.
    intro V. pose proof (seg_in g _ V) as I. pose proof (am_wf _ A _ I) as W. rewrite (ed_seg g pts G) by auto. unfold dsv. destruct (snd t); cbn [Bool.eqb].
    - rewrite (lv_l g P), us_l by auto. auto.
    - rewrite (lv_r g P), us_r by auto. auto.
  Qed.
  Lemma from_edge c d : from c -> In d (N c) -> exists t, av F0 t = true /\ valid (fst t) /\ d = ed g pts true t.
  Proof.
    intros (w & (_ & _ & Av) & I) Id. apply I in Id. apply in_map_iff in Id as (t & <- & It). exists t. pose proof (Av t It) as At. split; auto. split; auto.
    apply (used_valid g F0). apply (av_used g F0 (L0 g)). auto.
  Qed.
  Lemma from_links c : from c -> on_links g (nrm clockwise c).
  Proof.
    intros Fc d Id. destruct (from_edge c d Fc Id) as (t & _ & V & ->). exists (fst t). split; auto. rewrite (ed_seg g pts G) by auto. destruct (snd t); auto.
  Qed.
  Lemma from_const c k : from c -> (forall u, valid u -> k (seg u) <> 0 -> used g F0 u) -> balanced (ch k) -> forall d d', In d (N c) -> In d' (N c) -> lv g k d = lv g k d'.
  Proof.
    intros (w & GW & I) K B d d' Id Id'. apply I in Id. apply I in Id'. apply in_map_iff in Id as (t & <- & It). apply in_map_iff in Id' as (t' & <- & It').
    pose proof GW as ((s & T & EW & C & _) & _ & Av).
    assert (V : forall t, In t (snd w) -> valid (fst t)) by (intros x Ix; apply (used_valid g F0); apply (av_used g F0 (L0 g)); auto).
    rewrite (proj1 (ed_lv k t (V t It))), (proj1 (ed_lv k t' (V t' It'))).
    assert (X : forall t, In t (snd w) -> dsv g k t = dsv g k s).
    { intros x Ix. rewrite EW in Ix. destruct Ix as [<-|Ix]; auto. apply (dsv_const g pts G P NDp F0 (L0 g) (fst w) k B K T s C). auto. }
    rewrite (X t It), (X t' It'). auto.
  Qed.

  (** the shape has a contour edge along the link, with the shape above, below it *)
  Definition sh_top (sh : list (list pt)) (i : nat) : Prop := In (sa (seg i), sb (seg i)) (flat_map (left_edges clockwise) sh).
  Definition sh_bot (sh : list (list pt)) (i : nat) : Prop := In (sb (seg i), sa (seg i)) (flat_map (left_edges clockwise) sh).
  Definition on_used (c : list pt) : Prop := forall d, In d (edges c) -> exists u, used g F0 u /\ us d = seg u.
  Theorem slice_shapes_spec dbg : exists ps spurs shapes, slice_pieces g cwo clockwise 0 = Some ps /\ slice_shapes g cwo dbg clockwise 0 = Some shapes /\
    grouped (slice_outers ps) (slice_holes ps) shapes /\
    Forall (fun c => NoDup c /\ (3 <= length c)%nat) (concat shapes) /\
    shapes_ok (sign_of clockwise) R shapes /\
    Permutation (flat_map (left_edges clockwise) (concat shapes) ++ flat_map both_ways spurs) (inner_sides links) /\
    (forall d, In d spurs -> forall k, balanced (ch k) -> (forall u, valid u -> k (seg u) <> 0 -> used g F0 u) -> k (us d) = 0) /\
    (forall c, In c (concat shapes) -> on_used c) /\
    (forall k1 sh1 i, nth_error shapes k1 = Some sh1 -> valid i -> sh_top sh1 i -> sh_bot sh1 i -> False) /\
    (forall k1 sh1 i q, nth_error shapes k1 = Some sh1 -> valid i -> inside_seg (seg i) q ->
       (sh_top sh1 i -> near (fun d => covers sh1 (top_side (seg i) q d))) /\
       (sh_bot sh1 i -> near (fun d => covers sh1 (bottom_side (seg i) q d))) /\
       (~ sh_top sh1 i -> ~ sh_bot sh1 i -> near (fun d => covers sh1 (top_side (seg i) q d) <-> covers sh1 (bottom_side (seg i) q d)))).
  Proof.
    destruct (slice_spec g pts G P NDp Srt kR BR HT cwo Hcw clockwise) as (ps & spurs & E & Fs & Fo & Pe & W). rewrite Forall_forall in Fo.
    set (outers := slice_outers ps). set (holes := slice_holes ps). assert (Pc : Permutation (outers ++ holes) (map snd ps)).
    { unfold outers, holes, slice_outers, slice_holes. clear. induction ps as [|[[] c] ps IH]; auto; cbn [filter negb fst map snd app].
      - symmetry. apply Permutation_cons_app. symmetry. auto.
      - apply perm_skip. auto. }
    assert (Ino : forall c, In c outers -> In (false, c) ps).
    { intros c I. apply in_map_iff in I as ([h x] & <- & I). apply filter_In in I as [I B]. cbn [fst snd] in *. destruct h; [discriminate|auto]. }
    assert (Inh : forall c, In c holes -> In (true, c) ps).
    { intros c I. apply in_map_iff in I as ([h x] & <- & I). apply filter_In in I as [I B]. cbn [fst snd] in *. destruct h; [auto|discriminate]. }
    assert (Ic : forall c, In c (outers ++ holes) -> NoDup c /\ (3 <= length c)%nat /\ from c).
    { intros c I. apply in_app_or in I as [I|I]; [apply Ino in I|apply Inh in I]; apply Fo in I; tauto. }
    assert (To : forall c, In c outers -> turns (sign_of clockwise) c) by (intros c I; apply Ino, Fo in I; tauto).
    assert (Th : forall c, In c holes -> turns (- sign_of clockwise) c) by (intros c I; apply Inh, Fo in I; tauto).
    assert (Kw : forall c q, In c (outers ++ holes) -> wind (ch (kc c)) q = sign_of clockwise * contour_wind c q).
    { intros c q I. rewrite (ke_wind g P F0 (L0 g)) by (apply from_links; apply Ic; auto). rewrite <- left_wind. reflexivity. }
    assert (Hes : forall c d, In c (outers ++ holes) -> In d (N c) -> In (us d) ges).
    { intros c d I Id. destruct (from_edge c d (proj2 (proj2 (Ic c I))) Id) as (t & _ & V & ->). rewrite (proj2 (ed_lv (fun _ => 0) t V)). apply seg_in. auto. }
    assert (Hnd : NoDup (flat_map (fun c => N c) (outers ++ holes))).
    { apply (Permutation_NoDup (l := flat_map (left_edges clockwise) (map snd ps))).
      - apply Permutation_flat_map. symmetry. exact Pc.
      - apply (nodup_l _ (flat_map both_ways spurs)). apply (Permutation_NoDup (Permutation_sym Pe)). apply (inner_nodup g pts G P). }
    assert (Hs : forall c, In c (outers ++ holes) -> NoDup c /\ (3 <= length c)%nat) by (intros c I; split; apply Ic; auto).
    assert (Hb : forall c, In c (outers ++ holes) -> balanced (ch (kc c))).
    { intros c I. apply (ke_balanced g P F0 (L0 g)). apply from_links. apply Ic. auto. }
    assert (Ho : forall c q, In c outers -> wind (ch (kc c)) q = 0 \/ wind (ch (kc c)) q = 1).
    { intros c q I. rewrite Kw by (apply in_or_app; auto). destruct (proj1 (To c I) q) as [-> | ->]; destruct clockwise; auto. }
    assert (Hh : forall c q, In c holes -> wind (ch (kc c)) q = 0 \/ wind (ch (kc c)) q = -1).
    { intros c q I. rewrite Kw by (apply in_or_app; auto). destruct (proj1 (Th c I) q) as [-> | ->]; destruct clockwise; auto. }
    assert (Us : forall k, supported g clockwise outers holes k -> forall u, valid u -> k (seg u) <> 0 -> used g F0 u).
    { intros k [_ Sk] u V Nk. destruct (Sk (seg u) (seg_in g u V) Nk) as (c & d & Ic' & Id & Eu). destruct (from_edge c d (proj2 (proj2 (Ic c Ic'))) Id) as (t & At & Vt & Ed). subst d.
      rewrite (proj2 (ed_lv k t Vt)) in Eu. apply (seg_inj g P) in Eu; auto. subst u. apply (av_used g F0 (L0 g)). auto. }
    assert (Hc : forall c k, In c (outers ++ holes) -> supported g clockwise outers holes k -> forall d d', In d (N c) -> In d' (N c) -> lv g k d = lv g k d').
    { intros c k I Sk. apply from_const; [apply Ic; auto|apply Us; auto|apply Sk]. }
    assert (HS : supported g clockwise outers holes (kS clockwise outers holes)) by (apply (ksh_supported g P clockwise outers holes Hb (outers ++ holes)); apply incl_refl).
    assert (WS : forall l q, incl l (outers ++ holes) -> wind (ch (ksh clockwise l)) q = sign_of clockwise * contours_wind l q).
    { induction l as [|c l IH]; intros q I.
      - unfold wind, SectorLemma.ch. rewrite zsum_map. unfold contours_wind. rewrite zsum_nil, zsum_zero; [lia|]. intros e _. cbn [fst snd]. unfold ksh. rewrite zsum_nil. destruct (under e q); auto.
      - rewrite (wind_lin ges (ksh clockwise (c :: l)) (ksh clockwise l) (kc c) 1) by (intros e _; unfold ksh; rewrite zsum_cons; lia).
        rewrite (IH q) by (intros x Hx; apply I; right; auto). rewrite Kw by (apply I; left; auto). unfold contours_wind. rewrite zsum_cons. lia. }
    assert (H1 : forall c d, In c (outers ++ holes) -> In d (N c) -> lv g (kS clockwise outers holes) d = 1).
    { intros c d I Id. destruct (from_edge c d (proj2 (proj2 (Ic c I))) Id) as (t & At & V & ->). transitivity (lv g kR (ed g pts true t)).
      - set (kd := fun e => kS clockwise outers holes e + (-1) * kR e).
        assert (Bd : balanced (ch kd)) by (apply (balanced_lin ges kd (kS clockwise outers holes) kR (-1)); auto; apply HS).
        assert (Wd : forall q, wind (ch kd) q = 0).
        { intro q. rewrite (wind_lin ges kd (kS clockwise outers holes) kR (-1)) by auto. change (kS clockwise outers holes) with (ksh clockwise (outers ++ holes)). rewrite WS by apply incl_refl.
          unfold contours_wind. rewrite (zsum_perm _ _ _ Pc). fold (contours_wind (map snd ps) q). rewrite W. unfold sign_of. destruct clockwise; lia. }
        pose proof (seg_in g _ V) as Is. destruct (side_val g P kd (seg (fst t)) Is Bd) as [(q1 & X1) (q2 & X2)]. rewrite Wd in X1, X2.
        rewrite (top_lin ges kd (kS clockwise outers holes) kR (-1)) in X1 by auto. rewrite (bot_lin ges kd (kS clockwise outers holes) kR (-1)) in X2 by auto.
        rewrite !(proj1 (ed_lv _ t V)). unfold dsv. destruct (snd t); lia.
      - rewrite (proj1 (ed_lv kR t V)), (dsv_av g kR HT t V), At. auto. }
    destruct (join_holes g P clockwise outers holes Hes Hnd Hs Hb Hh Hc HS H1 dbg) as (out & par & J & As & Bl).
    assert (Pall : Permutation (concat out) (map snd ps)) by (rewrite (assembled_all _ _ _ _ As); exact Pc).
    assert (Hsh : forall k sh, nth_error out k = Some sh -> exists o hs, sh = o :: hs /\ In o outers /\ (forall h, In h hs -> In h holes /\ same g clockwise outers holes h o) /\ NoDup (flat_map (fun c => N c) sh) /\ incl sh (outers ++ holes)).
    { intros k sh Ek. pose proof As as (Lp & Fp & Lo & Sp).
      assert (Lk : (k < length outers)%nat) by (rewrite <- Lo; apply nth_error_Some; congruence). destruct (nth_error outers k) as [o|] eqn:Eo; [|apply nth_error_None in Eo; lia].
      pose proof (Sp k o Eo) as X. rewrite Ek in X. injection X as ->. pose proof (nth_error_In _ _ Eo) as Io. exists o, (given par holes k). split; auto. split; auto. split; [|split].
      - intros h Ih. unfold given in Ih. apply in_map_iff in Ih as ([k' h'] & <- & Ih). apply filter_In in Ih as [Ih Ek']. cbn [fst snd] in *. apply Nat.eqb_eq in Ek'. subst k'.
        apply In_nth_error in Ih as (ix & Hix). assert (X1 : nth_error par ix = Some k /\ nth_error holes ix = Some h') by (apply combine_at; exact Hix).
        destruct X1 as [X1 X2]. split; [eapply nth_error_In; eauto|]. destruct (Bl ix k X1) as (h & o' & Y1 & Y2 & Y3). assert (h = h') by congruence. assert (o' = o) by congruence. subst h o'. exact Y3.
      - assert (Pf : Permutation (flat_map (fun c => N c) (concat out)) (flat_map (fun c => N c) (outers ++ holes))) by (apply Permutation_flat_map; apply (assembled_all _ _ _ _ As)).
        apply (Permutation_NoDup (Permutation_sym Pf)) in Hnd. apply nth_error_split in Ek as (l1 & l2 & -> & _). rewrite concat_app in Hnd. cbn [concat] in Hnd. rewrite !flat_map_app in Hnd.
        apply nodup_r in Hnd. apply nodup_l in Hnd. exact Hnd.
      - intros c Hc'. apply (Permutation_in _ (assembled_all _ _ _ _ As)). apply in_concat. exists (o :: given par holes k). split; auto. eapply nth_error_In; eauto. }
    assert (Sw : forall k sh q, nth_error out k = Some sh -> wind (ch (ksh clockwise sh)) q = 0 \/ wind (ch (ksh clockwise sh)) q = 1).
    { intros k sh q Ek. destruct (Hsh k sh Ek) as (o & hs & -> & Io & Ihs & Nsh & _). apply (shape_wind g P clockwise outers holes Hes Hs Hb Ho Hc o hs Io Ihs Nsh q). }
    assert (Sok : shapes_ok (sign_of clockwise) R out).
    { apply (shapes_from (sign_of clockwise) R outers holes par out); auto.
      - destruct clockwise; auto.
      - apply Forall_forall. auto.
      - apply Forall_forall. auto.
      - intros sh q I. apply In_nth_error in I as (k & Ek). destruct (Hsh k sh Ek) as (_ & _ & _ & _ & _ & _ & Inc). pose proof (Sw k sh q Ek) as SW. rewrite WS in SW by auto.
        destruct SW as [X|X]; unfold sign_of in *; destruct clockwise; lia.
      - intro q. unfold contours_wind. rewrite (zsum_perm _ _ _ Pc). fold (contours_wind (map snd ps) q). rewrite W, HR. auto. }
    assert (Cv : forall k sh q, nth_error out k = Some sh -> (covers sh q <-> wind (ch (ksh clockwise sh)) q = 1)).
    { intros k sh q Ek. destruct (Hsh k sh Ek) as (_ & _ & _ & _ & _ & _ & Inc). destruct Sok as [Fok _]. rewrite Forall_forall in Fok. rewrite <- (shape_covers (sign_of clockwise) sh q); [|destruct clockwise; discriminate|apply Fok; eapply nth_error_In; eauto].
      unfold nz_at. pose proof (Sw k sh q Ek) as X. rewrite WS in * by auto. unfold sign_of in *. destruct clockwise; lia. }
    assert (Nb : forall k1 sh1 i, nth_error out k1 = Some sh1 -> valid i -> sh_top sh1 i -> sh_bot sh1 i -> False).
    { intros k sh i Ek V T B. destruct (Hsh k sh Ek) as (o & hs & -> & Io & Ihs & Nsh & Inc). unfold sh_top in T. unfold sh_bot in B.
      pose proof T as T'. apply in_flat_map in T' as (c & Icc & Ict).
      destruct (sh_common g clockwise outers holes Hs Hc o hs Io Ihs (kc c) (kc_supported g P clockwise outers holes Hb c (Inc c Icc))) as (lam & Hl).
      pose proof (Hl _ T) as X1. pose proof (Hl _ B) as X2. pose proof (seg_in g i V) as Ig. rewrite (lv_l g P) in X1 by auto. rewrite (lv_r g P) in X2 by auto. pose proof (tb g (kc c) (seg i)) as Tb.
      rewrite (kc_l g clockwise outers holes Hs c (seg i) (Inc c Icc) Ict) in Tb. lia. }
    exists ps, spurs, out. split; auto. split; [unfold slice_shapes; rewrite E; exact J|]. split; [eapply assembled_grouped; eauto|]. split; [|split; [|split; [|split; [|split; [|split]]]]].
    - apply Forall_forall. intros c I. apply Hs. apply (Permutation_in _ (assembled_all _ _ _ _ As)). auto.
    - exact Sok.
    - rewrite <- Pe. apply Permutation_app_tail. apply Permutation_flat_map. exact Pall.
    - intros d Id k B K. rewrite Forall_forall in Fs. destruct (Fs d Id) as (w & GW & I1 & I2). apply in_map_iff in I1 as (t & Ed & It). apply in_map_iff in I2 as (t' & Ed' & It').
      pose proof GW as ((s & T & EW & C & _) & _ & Av).
      assert (V : forall t, In t (snd w) -> valid (fst t)) by (intros x Ix; apply (used_valid g F0); apply (av_used g F0 (L0 g)); auto).
      assert (X : forall t, In t (snd w) -> dsv g k t = dsv g k s).
      { intros x Ix. rewrite EW in Ix. destruct Ix as [<-|Ix]; auto. apply (dsv_const g pts G P NDp F0 (L0 g) (fst w) k B K T s C). auto. }
      destruct (ed_lv k t (V t It)) as [L1 U1]. destruct (ed_lv k t' (V t' It')) as [L2 U2]. rewrite (X t It) in L1. rewrite (X t' It') in L2. rewrite Ed in *. rewrite Ed' in *.
      pose proof (seg_in g _ (V t It)) as Ig. rewrite <- U1 in Ig. pose proof (tb g k (us d)) as Tb.
      destruct (us_cases d) as [[Eq _]|[Eq _]]; rewrite Eq in L1, L2; unfold flip in L2; cbn [fst snd] in L2; rewrite (lv_l g P), (lv_r g P) in * by auto; lia.
    - intros c I d Id. apply (Permutation_in _ (assembled_all _ _ _ _ As)) in I. destruct (Ic c I) as (_ & _ & Fr).
      assert (X : exists d', In d' (N c) /\ us d' = us d).
      { unfold nrm. destruct clockwise; [|eauto]. exists (BindSweep.swap d). split; [apply (Permutation_in _ (Permutation_sym (edges_rev c))); apply in_map; auto|]. apply us_swap. }
      destruct X as (d' & Id' & <-). destruct (from_edge c d' Fr Id') as (t & At & Vt & ->). exists (fst t). split; [apply (av_used g F0 (L0 g)); auto|]. apply (proj2 (ed_lv (fun _ => 0) t Vt)).
    - exact Nb.
    - intros k sh i q Ek V Hq. destruct (Hsh k sh Ek) as (o & hs & -> & Io & Ihs & Nsh & Inc). pose proof (seg_in g i V) as Ig.
      pose proof (ksh_supported g P clockwise outers holes Hb (o :: hs) Inc) as [Bk Sk]. destruct (sides ges A _ _ q Bk Ig Hq) as [S1 S2].
      pose proof (tb g (ksh clockwise (o :: hs)) (seg i)) as Tb. pose proof (ksh_cnt clockwise (o :: hs) (seg i)) as Kc.
      destruct (side_val g P _ _ Ig Bk) as [(q1 & W1) (q2 & W2)]. pose proof (Sw k _ q1 Ek) as X1. pose proof (Sw k _ q2 Ek) as X2. rewrite W1 in X1. rewrite W2 in X2.
      split; [|split].
      + intro T. assert (Nt : ~ sh_bot (o :: hs) i) by (intro X; eapply Nb; eauto). unfold sh_bot, sh_top, left_edges in *. fold (nrm clockwise) in *.
        rewrite (cnt_one clockwise (o :: hs) (sa (seg i), sb (seg i)) Nsh T), (cnt_zero clockwise (o :: hs) _ Nt) in Kc. eapply near_mono; [|exact S1]. intros d _ Wd. cbv beta in *. apply (Cv k _ _ Ek). rewrite Wd. lia.
      + intro T. assert (Nt : ~ sh_top (o :: hs) i) by (intro X; eapply Nb; eauto). unfold sh_bot, sh_top, left_edges in *. fold (nrm clockwise) in *.
        rewrite (cnt_one clockwise (o :: hs) (sb (seg i), sa (seg i)) Nsh T), (cnt_zero clockwise (o :: hs) _ Nt) in Kc. eapply near_mono; [|exact S2]. intros d _ Wd. cbv beta in *. apply (Cv k _ _ Ek). rewrite Wd. lia.
      + intros N1 N2. rewrite !cnt_zero in Kc by auto. eapply near_mono; [|exact (near_and _ _ S1 S2)]. intros d _ [E1 E2]. cbv beta in *. rewrite !(Cv k _ _ Ek). rewrite E1, E2. lia.
  Qed.
End Final.
