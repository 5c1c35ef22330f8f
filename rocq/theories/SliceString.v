(** * From a string arrangement to the hypotheses of [SliceMain]. *)
From Verif Require Import Base Spec QLib ModelSegm SegmProofs MergeProofs PlanarGeo PlanarSum ModelFill ModelFilter FillProofs FillCorrect
  CoreResults Properties01 ModelSplit SplitProofs SplitPlanar SplitPass SplitApply SplitLoop ModelOverlay OverlayProofs
  ModelGraph GraphProofs ModelExtract ExtractProofs Rotation NextLink MoveLemma SectorLemma Sides WalkSides Orient
  ModelString StringProofs StringResults AreaWind ModelSlice SliceNext SliceWalk SliceLoops SliceMain.
Open Scope Z_scope.

Section String.
  Variable arr : list (segment cntS).
  Hypothesis I : SplitLoop.inv arr.
  Hypothesis Pl : planar (map sx arr).
  Hypothesis Bal : balanced (chain_of ssubj arr).
  Variable fr : FillRule.
  Notation links := (build_links (fun _ => true) arr (ModelFill.fill_string fr arr)).
  Variables (g : graph) (pts : list pt).
  Hypothesis G : graph_of links g pts.

  Lemma s_wf : Forall (fun s => wf_xseg (sx s)) arr. Proof. apply (inv_wf _ I). Qed.
  Lemma s_sr : strict_sorted arr. Proof. apply (inv_sorted _ I). Qed.
  Lemma s_ok : Forall (fun s => (sclip (sc s) < 4)%N) arr. Proof. apply (inv_ok _ I). Qed.
  Notation bs s := (botsum bool vals (map as_bool arr) true (as_bool s)).

  Lemma s_links : links = map (fun s => Lk 0 (sa (sx s)) 0 (sb (sx s)) (string_fill (inside fr (bs s + ssubj (sc s))) (inside fr (bs s)) (N.testbit (sclip (sc s)) 0) (N.testbit (sclip (sc s)) 1))) arr.
  Proof.
    unfold build_links. replace (filter (fun p : segment cntS * fill_t => true) (combine arr (ModelFill.fill_string fr arr))) with (combine arr (ModelFill.fill_string fr arr))
      by (generalize (combine arr (ModelFill.fill_string fr arr)); clear; intro l; induction l; simpl; congruence).
    apply (nth_ext _ _ (Lk 0 (Pt 0 0) 0 (Pt 0 0) 0%N) (Lk 0 (Pt 0 0) 0 (Pt 0 0) 0%N)).
    - rewrite !map_length, combine_length, (string_fill_length arr fr). lia.
    - intros j Lj. rewrite map_length, combine_length, (string_fill_length arr fr) in Lj. assert (Lj' : (j < length arr)%nat) by lia.
      apply nth_error_Some in Lj'. destruct (nth_error arr j) as [s|] eqn:E; [|congruence].
      pose proof (string_fill_at arr s_wf s_sr Pl Bal s_ok fr j s E) as Ef.
      assert (Ec : nth_error (combine arr (ModelFill.fill_string fr arr)) j = Some (s, string_fill (inside fr (bs s + ssubj (sc s))) (inside fr (bs s)) (N.testbit (sclip (sc s)) 0) (N.testbit (sclip (sc s)) 1))).
      { clear - E Ef. revert Ef. generalize (string_fill (inside fr (bs s + ssubj (sc s))) (inside fr (bs s)) (N.testbit (sclip (sc s)) 0) (N.testbit (sclip (sc s)) 1)) as f. revert E. generalize (ModelFill.fill_string fr arr) as fs. revert j.
        induction arr as [|x l IH]; intros [|j] [|f0 fs] H1 f H2; try discriminate; simpl in *; [congruence|]. apply IH; auto. }
      apply (map_nth_error mk_link) in Ec. rewrite (nth_error_nth _ _ _ Ec).
      erewrite nth_error_nth; [|apply map_nth_error; exact E]. reflexivity.
  Qed.
  Lemma s_link i : valid g i -> exists s, nth_error arr i = Some s /\ seg g i = sx s /\
    l_fill (lk g i) = string_fill (inside fr (bs s + ssubj (sc s))) (inside fr (bs s)) (N.testbit (sclip (sc s)) 0) (N.testbit (sclip (sc s)) 1).
  Proof.
    intro V. assert (L : (i < length links)%nat) by (rewrite <- (go_len _ _ _ G); auto). assert (L' : (i < length arr)%nat) by (rewrite s_links, map_length in L; auto).
    apply nth_error_Some in L'. destruct (nth_error arr i) as [s|] eqn:E; [|congruence]. exists s. split; auto.
    assert (El := map_nth_error (fun s => Lk 0 (sa (sx s)) 0 (sb (sx s)) (string_fill (inside fr (bs s + ssubj (sc s))) (inside fr (bs s)) (N.testbit (sclip (sc s)) 0) (N.testbit (sclip (sc s)) 1))) _ _ E).
    rewrite <- s_links in El. destruct (go_link _ _ _ G i _ El) as (l' & H & B1 & B2 & B3 & _). rewrite (lk_nth g i V) in H. injection H as H.
    unfold seg. rewrite H. unfold l_seg. cbn [l_a l_b l_fill] in *. rewrite B1, B2, B3. split; auto. destruct (sx s); auto.
  Qed.
  Lemma s_len : length (g_links g) = length arr.
  Proof. rewrite (go_len _ _ _ G), s_links, map_length. auto. Qed.
  Lemma s_ges : ges g = map sx arr.
  Proof.
    unfold ges. apply (nth_ext _ _ (XS (Pt 0 0) (Pt 0 0)) (XS (Pt 0 0) (Pt 0 0))); [rewrite !map_length; apply s_len|].
    intros i Li. rewrite map_length in Li. destruct (s_link i Li) as (s & Hs & Es & _).
    assert (E1 : nth_error (map l_seg (g_links g)) i = Some (seg g i)) by (rewrite nth_error_map, (lk_nth g i Li); auto).
    assert (E2 : nth_error (map sx arr) i = Some (seg g i)) by (rewrite nth_error_map, Hs; simpl; congruence).
    rewrite (nth_error_nth _ _ _ E1), (nth_error_nth _ _ _ E2). auto.
  Qed.
  Lemma s_nd : NoDup (map sx arr). Proof. apply strict_sorted_NoDup, s_sr. Qed.
  Lemma s_planar : links_planar (g_links g).
  Proof.
    constructor.
    - intros i l H. assert (V : valid g i) by (apply nth_error_Some; congruence). destruct (s_link i V) as (s & Hs & Es & _).
      rewrite (lk_nth g i V) in H. injection H as <-. fold (seg g i). rewrite Es. pose proof s_wf as W. rewrite Forall_forall in W. apply W. eapply nth_error_In; eauto.
    - intros i j l m Hi Hj N. assert (Vi : valid g i) by (apply nth_error_Some; congruence). assert (Vj : valid g j) by (apply nth_error_Some; congruence).
      destruct (s_link i Vi) as (s & Hs & Es & _). destruct (s_link j Vj) as (t & Ht & Et & _).
      rewrite (lk_nth g i Vi) in Hi. rewrite (lk_nth g j Vj) in Hj. injection Hi as <-. injection Hj as <-. fold (seg g i) (seg g j). rewrite Es, Et.
      assert (NE : sx s <> sx t).
      { intro E. apply N. apply (proj1 (NoDup_nth_error _) s_nd); [apply nth_error_Some|]; rewrite !nth_error_map, ?Hs, ?Ht; [discriminate|simpl; congruence]. }
      split; auto. intros q. apply Pl; auto; apply in_map; eapply nth_error_In; eauto.
  Qed.
  Lemma s_gw : graph_wf g pts.
  Proof. exact (graph_of_wf _ _ _ (proj1 (proj2 (string_links_sorted arr s_wf s_sr Pl Bal s_ok (fun _ => true) fr))) G). Qed.
  Lemma s_nodup : NoDup pts.
  Proof.
    pose proof (go_sorted _ _ _ G) as S. clear - S. induction S as [|p l S IH F]; constructor; auto.
    intro H. rewrite Forall_forall in F. specialize (F p H). eapply pt_lt_irrefl; eauto.
  Qed.
  Lemma s_sorted : forall i j, (i <= j)%nat -> valid g j -> ~ pt_lt (sa (seg g j)) (sa (seg g i)).
  Proof.
    intros i j Lij Vj. assert (Vi : valid g i) by (unfold valid in *; lia).
    destruct (Nat.eq_dec i j) as [->|N]; [apply pt_lt_irrefl|].
    destruct (s_link i Vi) as (s & Hs & -> & _). destruct (s_link j Vj) as (t & Ht & -> & _).
    pose proof s_sr as S. unfold strict_sorted in S. clear - S Hs Ht Lij N. revert i j s t Hs Ht Lij N.
    induction S as [|x ls S IH F]; intros i j l m Hl Hm Lij N; [destruct i; discriminate|].
    destruct j as [|j]; [lia|]. destruct i as [|i].
    - injection Hl as <-. simpl in Hm. apply nth_error_In in Hm. rewrite Forall_forall in F. apply F in Hm.
      assert (L : pt_leb (sa (sx x)) (sa (sx m)) = true) by (apply xseg_leb_sa, xseg_leb_le; left; exact Hm).
      intro X. unfold pt_leb in L. apply orb_true_iff in L as [L|L]; [apply pt_ltb_lt in L|apply pt_eqb_eq in L; rewrite L in X]; [|eapply pt_lt_irrefl; eauto].
      eapply pt_lt_irrefl, pt_lt_trans; eauto.
    - simpl in *. apply (IH i j l m); auto; lia.
  Qed.

  (** the region *)
  Definition kreg (e : xseg) : Z := zsum (fun s => if xseg_eq_dec (sx s) e then jump (map as_bool arr) fr RSubject (as_bool s) else 0) arr.
  Lemma kreg_at s : In s arr -> kreg (sx s) = jump (map as_bool arr) fr RSubject (as_bool s).
  Proof.
    intro Is. unfold kreg. pose proof s_nd as N. revert Is N. generalize (jump (map as_bool arr) fr RSubject). intro J. clear. induction arr as [|x l IH]; intros Is N; [destruct Is|]. rewrite zsum_cons. simpl in N. inversion N as [|? ? N1 N2]; subst.
    destruct Is as [->|Is].
    - destruct (xseg_eq_dec (sx s) (sx s)); [|congruence]. rewrite (zsum_zero _ l); [lia|]. intros y Iy. destruct (xseg_eq_dec (sx y) (sx s)) as [E|]; auto. exfalso. apply N1. rewrite <- E. apply in_map. auto.
    - destruct (xseg_eq_dec (sx x) (sx s)) as [E|]; [exfalso; apply N1; rewrite E; apply in_map; auto|]. rewrite IH; auto.
  Qed.
  Lemma kreg_chain : ch (ges g) kreg = jump_chain (map as_bool arr) fr RSubject.
  Proof. unfold ch, jump_chain. rewrite s_ges, !map_map. apply map_ext_in. intros s Is. cbn [as_bool sx]. rewrite kreg_at; auto. Qed.
  Lemma kreg_balanced : balanced (ch (ges g) kreg).
  Proof. rewrite kreg_chain. apply jump_balanced. apply (as_bool_arr arr s_wf s_sr Pl Bal). Qed.
  Lemma kreg_wind q : wind (ch (ges g) kreg) q = bz (inside fr (wind (chain_of ssubj arr) q)).
  Proof. rewrite kreg_chain, jump_wind by apply (as_bool_arr arr s_wf s_sr Pl Bal). unfold opv. cbn [bool_op]. rewrite as_bool_chain. auto. Qed.
  Lemma kreg_sides i : valid g i -> top (ges g) kreg (seg g i) = bz (N.testbit (l_fill (lk g i)) 0) /\ bot (ges g) kreg (seg g i) = bz (N.testbit (l_fill (lk g i)) 1).
  Proof.
    intro V. pose proof (g_ambient g s_planar) as A. destruct (s_link i V) as (s & Hs & Es & Ef). pose proof (nth_error_In _ _ Hs) as Is.
    destruct (mid_inside (seg g i)) as (q & Hq); [apply (am_wf _ A), (seg_in g i V)|].
    destruct (sides (ges g) A kreg (seg g i) q kreg_balanced (seg_in g i V) Hq) as [S1 S2].
    rewrite Es in Hq. pose proof (string_sides arr s_wf s_sr Pl Bal fr s q Is Hq) as S3. rewrite <- Es in S3.
    destruct (near_ex _ (near_and _ _ (near_and _ _ S1 S2) S3)) as (d & _ & (E1 & E2) & E3 & E4).
    destruct (bits_of (inside fr (bs s + ssubj (sc s))) (inside fr (bs s)) (N.testbit (sclip (sc s)) 0) (N.testbit (sclip (sc s)) 1)) as (B0 & B1 & _).
    rewrite Ef, B0, B1, <- E1, <- E2, !kreg_wind, E3, E4. auto.
  Qed.
End String.
