(** * Slicing a graph: the contours found are the pieces of the region, with the region on one side of every edge. *)
From Verif Require Import Base Spec QLib SegmProofs PlanarGeo PlanarSum FillProofs FillCorrect ModelGraph GraphProofs ModelExtract ExtractProofs Rotation NextLink MoveLemma SectorLemma Sides WalkSides Orient AreaWind ModelSlice SliceNext SliceWalk SliceLoops.
From Verif Require Import MergeProofs CoreResults Properties04.
From Verif Require LoopProofs Properties06 BindSweep.
From Coq Require Import Permutation.
Open Scope Z_scope.

(** ** areas *)
Lemma area_rev c : area2 (rev c) = - area2 c.
Proof.
  unfold area2. rewrite (zsum_perm _ _ _ (BindSweep.edges_rev c)), zsum_map. unfold BindSweep.swap. cbn [fst snd].
  induction (edges c) as [|e l IH]; [reflexivity|]. rewrite !zsum_cons, IH. lia.
Qed.
Lemma turns_rev d c : turns d c -> turns (- d) (rev c).
Proof.
  intros [T (q & Q)]. split; [|exists q; rewrite contour_wind_rev, Q; auto]. intro x. rewrite contour_wind_rev. destruct (T x) as [-> | ->]; auto.
Qed.
Lemma turns_area d c : turns d c -> d = 1 \/ d = -1 -> 0 < d * area2 c.
Proof.
  assert (K : forall c, turns 1 c -> 0 < area2 c).
  { intros b [T (q & Q)]. apply area_positive; [intro x; destruct (T x) as [-> | ->]; lia|exists q; lia]. }
  intros T [-> | ->]; [specialize (K c T); lia|]. apply turns_rev in T. specialize (K _ T). rewrite area_rev in K. lia.
Qed.

(** the steps of a contour, run so that the region lies on its left *)
Definition left_edges (clockwise : bool) (c : list pt) : list (pt * pt) := edges (if clockwise then rev c else c).
Definition both_ways (e : pt * pt) : list (pt * pt) := [e; flip e].
(** the sides of the links that are inside, as steps with the region on their left *)
Definition inner_sides (links : list link) : list (pt * pt) :=
  flat_map (fun l => (if N.testbit (l_fill l) 0 then [(l_a l, l_b l)] else []) ++ (if N.testbit (l_fill l) 1 then [(l_b l, l_a l)] else [])) links.

Lemma both_wind q l : zsum (edge_wind q) (flat_map both_ways l) = 0.
Proof. rewrite zsum_flat_map. apply zsum_zero. intros [a b] _. unfold both_ways, flip. cbn [fst snd]. rewrite !zsum_cons, zsum_nil, (edge_wind_anti q b a). lia. Qed.
Lemma both_flip l : Permutation (flat_map both_ways (map flip l)) (flat_map both_ways l).
Proof.
  induction l as [|[a b] l IH]; auto. cbn [map flat_map both_ways app]. unfold flip at 1 2 4. cbn [fst snd]. etransitivity; [apply perm_swap|]. do 2 apply perm_skip. exact IH.
Qed.
Lemma flip_flip e : flip (flip e) = e. Proof. destruct e; reflexivity. Qed.
Lemma left_wind clockwise c q : zsum (edge_wind q) (left_edges clockwise c) = sign_of clockwise * contour_wind c q.
Proof. unfold left_edges, sign_of. destruct clockwise; fold (contour_wind (rev c) q); fold (contour_wind c q); rewrite ?contour_wind_rev; lia. Qed.

Lemma fill_cases (f : fill_t) : In (N.land f SUBJ_BOTH) [0; 1; 2; 3]%N.
Proof.
  assert (H : (N.land f SUBJ_BOTH < 4)%N).
  { change SUBJ_BOTH with (N.ones 2). rewrite N.land_ones. apply N.mod_lt. discriminate. }
  destruct (N.land f SUBJ_BOTH) as [|[[p|p|]|[p|p|]|]]; simpl; auto; exfalso; destruct p; lia.
Qed.
Lemma land_bit (f : fill_t) (b : bool) : negb (N.land (N.land f SUBJ_BOTH) (bit_of b) =? 0)%N = N.testbit f (if b then 0 else 1).
Proof.
  rewrite <- N.land_assoc. assert (E : N.land SUBJ_BOTH (bit_of b) = (2 ^ (if b then 0 else 1))%N) by (destruct b; reflexivity). rewrite E.
  set (n := (if b then 0 else 1)%N). destruct (N.testbit f n) eqn:T.
  - apply negb_true_iff, N.eqb_neq. intro X. assert (Y : N.testbit (N.land f (2 ^ n)) n = false) by (rewrite X; apply N.bits_0). rewrite N.land_spec, N.pow2_bits_true, T in Y. discriminate.
  - apply negb_false_iff, N.eqb_eq. apply N.bits_inj. intro m. rewrite N.bits_0, N.land_spec. destruct (N.eq_dec m n) as [->|Ne]; [rewrite T; auto|]. rewrite N.pow2_bits_false by auto. apply andb_false_r.
Qed.

Section Main.
  Variable g : graph.
  Variable pts : list pt.
  Hypothesis G : graph_wf g pts.
  Hypothesis P : links_planar (g_links g).
  Hypothesis NDp : NoDup pts.
  Hypothesis Srt : forall i j, (i <= j)%nat -> valid g j -> ~ pt_lt (sa (seg g j)) (sa (seg g i)).
  Notation links := (g_links g).
  Notation valid := (valid g).
  Notation seg := (seg g).
  Notation ges := (ges g).
  Notation top k i := (top ges k (seg i)).
  Notation bot k i := (bot ges k (seg i)).
  Notation ch := (ch ges).
  Notation F0 := (slice_fills links).
  Notation good_walk := (good_walk g pts F0).
  Notation side_pt := (side_pt g pts).
  Notation ed := (ed g pts).
  (** the region as a chain over the links: its flags are the values of the winding number on the two sides *)
  Variable kR : xseg -> Z.
  Hypothesis BR : balanced (ch kR).
  Hypothesis HT : forall i, valid i -> top kR i = bz (N.testbit (l_fill (lk g i)) 0) /\ bot kR i = bz (N.testbit (l_fill (lk g i)) 1).

  Lemma L0 : length F0 = length links. Proof. unfold slice_fills. apply map_length. Qed.
  Lemma fill_lk i : valid i -> fill_at F0 i = N.land (l_fill (lk g i)) SUBJ_BOTH.
  Proof. intro V. unfold fill_at, slice_fills, WalkSides.lk. erewrite nth_indep by (rewrite map_length; exact V). rewrite map_nth. reflexivity. Qed.
  Lemma okF : okf F0.
  Proof.
    intro i. destruct (lt_dec i (length links)) as [V|V]; [rewrite fill_lk by exact V; apply fill_cases|]. unfold fill_at. rewrite nth_overflow by (rewrite L0; lia). simpl. auto.
  Qed.
  Lemma av_lk i b : valid i -> av F0 (i, b) = N.testbit (l_fill (lk g i)) (if b then 0 else 1).
  Proof. intro V. unfold av. cbn [fst snd]. rewrite fill_lk by auto. apply land_bit. Qed.
  Lemma kR_used u : valid u -> kR (seg u) <> 0 -> used g F0 u.
  Proof.
    intros V N. destruct (HT u V) as [T B]. pose proof (top_bot g kR u) as E. destruct (N.testbit (l_fill (lk g u)) 0) eqn:X.
    - apply (av_used g F0 L0 (u, true)). rewrite av_lk; auto.
    - destruct (N.testbit (l_fill (lk g u)) 1) eqn:Y; [apply (av_used g F0 L0 (u, false)); rewrite av_lk; auto|]. cbn [bz] in *. lia.
  Qed.
  Lemma dsv_av t : valid (fst t) -> dsv g kR t = bz (av F0 t).
  Proof. destruct t as [i b]. intro V. cbn [fst] in V. rewrite av_lk by auto. destruct (HT i V) as [T B]. unfold dsv. cbn [fst snd]. destruct b; auto. Qed.
  Lemma paired0 p : paired g pts F0 F0 p.
  Proof.
    intros s t C _. pose proof C as (U & Ut & _). pose proof (dsv_corner g pts G P NDp F0 L0 true kR s t BR kR_used C) as E.
    rewrite !dsv_av in E by (apply (used_valid g F0); auto). destruct (av F0 s), (av F0 t); auto; discriminate.
  Qed.

  Lemma good_nests w : good_walk w -> Properties06.visits_nest (map (side_pt (fst w)) (snd w)).
  Proof. intro H. destruct w as [cw W]. exact (walk_nests g pts G P NDp F0 L0 cw W H). Qed.
  (** the loops of a walk *)
  Record split_of (w : bool * list (nat * bool)) (ls : list (list pt)) (spurs : list (pt * pt)) : Prop := {
    so_eq : split_loops 0 (map (side_pt (fst w)) (snd w)) = Some ls;
    so_edges : Permutation (flat_map edges ls ++ flat_map both_ways spurs) (map (ed (fst w)) (snd w));
    so_simple : Forall (fun c => NoDup c /\ (3 <= length c)%nat) ls }.
  Lemma walk_split w : good_walk w -> exists ls spurs, split_of w ls spurs.
  Proof.
    intro H. destruct (LoopProofs.split_loops_spec _ (Properties06.visits_noncrossing _ (good_nests w H))) as (ls & tiny & E & Pe & F & T & _).
    destruct H as (Cl & ND & Av). pose proof Cl as (s & T0 & EW & C & Cl2 & _).
    assert (Ed : edges (map (side_pt (fst w)) (snd w)) = map (ed (fst w)) (snd w)) by (rewrite EW; apply (closed_edges g pts F0); auto). rewrite Ed in Pe.
    assert (X : exists spurs, flat_map edges tiny = flat_map both_ways spurs).
    { assert (Nd : forall c e, In c tiny -> In e (edges c) -> fst e <> snd e).
      { intros c e Ic Ie. assert (I : In e (map (ed (fst w)) (snd w))).
        { apply (Permutation_in _ (Permutation_sym Pe)). apply in_concat. exists (edges c). split; auto. apply in_map. apply in_or_app. auto. }
        apply in_map_iff in I as (t & <- & It). assert (V : valid (fst t)) by (apply (used_valid g F0); apply (av_used g F0 L0); apply Av; auto).
        rewrite (ed_seg g pts G) by auto. pose proof (seg_ne g P _ V). destruct (Bool.eqb _ _); cbn [fst snd]; auto. }
      clear Pe. induction T as [|c r Lc T IH]; [exists []; auto|]. destruct IH as (sp & Es); [intros; eapply Nd; eauto; right; auto|]. cbn [flat_map]. rewrite Es.
      destruct c as [|p [|q [|x c]]]; [exists sp; auto| |exists ((p, q) :: sp); reflexivity|simpl in Lc; lia].
      exfalso. apply (Nd [p] (p, p)); simpl; auto. }
    destruct X as (spurs & Es). exists ls, spurs. constructor; auto. rewrite <- Es, <- flat_map_app, flat_map_concat_map. symmetry. exact Pe.
  Qed.

  Variable cwo : list pt -> bool.
  (** the contract of [is_clockwise_ordered]: the sign of the area *)
  Hypothesis Hcw : forall c, (area2 c < 0 -> cwo c = true) /\ (0 < area2 c -> cwo c = false).

  Lemma place_spec w ls spurs c clockwise : good_walk w -> split_of w ls spurs -> In c ls ->
    exists hole, place_path cwo clockwise (fst w) c = (hole, if Bool.eqb clockwise (fst w) then rev c else c) /\
      turns (if hole then - sign_of clockwise else sign_of clockwise) (if Bool.eqb clockwise (fst w) then rev c else c).
  Proof.
    intros H S I. destruct w as [cw W]. cbn [fst]. pose proof (so_simple _ _ _ S) as F. rewrite Forall_forall in F. destruct (F c I) as [ND L3].
    destruct (loop_turns g pts G P NDp F0 L0 cw W c H ND L3) as (L & HL & T1 & T2).
    { intros d Id. pose proof H as (Cl & _ & _). destruct Cl as (s & T & EW & C & E & _). cbn [fst snd] in *. rewrite EW, (closed_edges g pts F0) by auto. rewrite <- EW. apply (Permutation_in _ (so_edges _ _ _ S)). apply in_or_app. left. apply in_flat_map. eauto. }
    assert (T : turns (sg cw * (2 * L - 1)) c) by (split; auto). clear T1 T2.
    assert (D1 : sg cw * (2 * L - 1) = 1 \/ sg cw * (2 * L - 1) = -1) by (destruct HL as [-> | ->], cw; cbn [sg]; lia).
    pose proof (turns_area _ _ T D1) as Ar. pose proof (turns_rev _ _ T) as Tr. destruct (Hcw c) as [H1 H2]. unfold place_path.
    destruct HL as [-> | ->].
    - exists true. assert (E : cwo c = cw) by (destruct cw; cbn [sg] in Ar; [apply H1|apply H2]; lia). rewrite E, Bool.eqb_reflx. split; auto. destruct clockwise, cw; exact Tr || exact T.
    - exists false. assert (E : cwo c = negb cw) by (destruct cw; cbn [sg negb] in *; [apply H2|apply H1]; lia). rewrite E. destruct clockwise, cw; (split; [reflexivity|exact Tr || exact T]).
  Qed.

  Lemma left_place clockwise cw c : Permutation (left_edges clockwise (if Bool.eqb clockwise cw then rev c else c)) (if cw then edges c else map flip (edges c)).
  Proof. unfold left_edges. destruct clockwise, cw; cbn [Bool.eqb]; rewrite ?rev_involutive; auto; exact (BindSweep.edges_rev c). Qed.
  Lemma ed_true (cw : bool) t : valid (fst t) -> ed true t = if cw then ed cw t else flip (ed cw t).
  Proof. intro V. rewrite !(ed_seg g pts G) by auto. destruct cw, (snd t); reflexivity. Qed.

  Lemma flat_map_perm_in {X Y} (f h : X -> list Y) l : (forall x, In x l -> Permutation (f x) (h x)) -> Permutation (flat_map f l) (flat_map h l).
  Proof. induction l as [|x l IH]; intro H; auto. cbn [flat_map]. apply Permutation_app; [apply H; left; auto|apply IH; intros; apply H; right; auto]. Qed.
  Lemma map_flat_map' {X Y Z} (f : Y -> Z) (h : X -> list Y) l : map f (flat_map h l) = flat_map (fun x => map f (h x)) l.
  Proof. induction l as [|x l IH]; auto. cbn [flat_map]. rewrite map_app, IH. auto. Qed.
  Lemma flip_both l : map flip (flat_map both_ways l) = flat_map both_ways (map flip l).
  Proof. induction l as [|e l IH]; auto. cbn [flat_map map both_ways app]. rewrite IH. auto. Qed.

  Lemma walk_left w ls spurs clockwise : good_walk w -> split_of w ls spurs ->
    Permutation (flat_map (left_edges clockwise) (map snd (map (place_path cwo clockwise (fst w)) ls)) ++ flat_map both_ways spurs) (map (ed true) (snd w)).
  Proof.
    intros H S. pose proof H as (_ & _ & Av).
    assert (V : forall t, In t (snd w) -> valid (fst t)) by (intros t It; apply (used_valid g F0); apply (av_used g F0 L0); auto).
    rewrite (map_ext_in (ed true) (fun t => if fst w then ed (fst w) t else flip (ed (fst w) t)) (snd w) (fun t It => ed_true (fst w) t (V t It))).
    transitivity (flat_map (fun c => if fst w then edges c else map flip (edges c)) ls ++ flat_map both_ways spurs).
    - apply Permutation_app_tail. rewrite map_map, flat_map_concat_map, map_map, <- flat_map_concat_map. apply flat_map_perm_in. intros c Ic.
      destruct (place_spec w ls spurs c clockwise H S Ic) as (h & -> & _). cbn [snd]. apply left_place.
    - pose proof (so_edges _ _ _ S) as Pe. destruct (fst w).
      + exact Pe.
      + apply (Permutation_map flip) in Pe. rewrite map_app, map_flat_map', flip_both in Pe. rewrite <- (both_flip spurs), Pe, map_map. reflexivity.
  Qed.

  Lemma ed_sides : map (ed true) (filter (av F0) (all_sides g)) = inner_sides links.
  Proof.
    unfold all_sides, inner_sides. assert (E : links = map (lk g) (seq 0 (length links))).
    { apply nth_ext with (d := Lk 0 (Pt 0 0) 0 (Pt 0 0) 0%N) (d' := Lk 0 (Pt 0 0) 0 (Pt 0 0) 0%N); [rewrite map_length, seq_length; auto|]. intros n L.
      rewrite (nth_indep (map (lk g) (seq 0 (length links))) _ (lk g 0)) by (rewrite map_length, seq_length; auto). rewrite map_nth, seq_nth by auto. reflexivity. }
    match goal with |- ?a = flat_map ?f links => transitivity (flat_map f (map (lk g) (seq 0 (length links)))); [|rewrite <- E; auto] end. clear E. assert (V : forall i, In i (seq 0 (length links)) -> valid i) by (intros i I; apply in_seq in I; unfold WalkSides.valid; lia). revert V.
    generalize (seq 0 (length links)). intros l V. induction l as [|i l IH]; auto. cbn [flat_map map app]. rewrite <- IH by (intros; apply V; right; auto).
    pose proof (V i (or_introl eq_refl)) as Vi. cbn [filter]. rewrite !av_lk by auto.
    assert (E1 : ed true (i, true) = (l_a (lk g i), l_b (lk g i))) by (rewrite (ed_seg g pts G) by auto; reflexivity).
    assert (E2 : ed true (i, false) = (l_b (lk g i), l_a (lk g i))) by (rewrite (ed_seg g pts G) by auto; reflexivity).
    destruct (N.testbit (l_fill (lk g i)) 0), (N.testbit (l_fill (lk g i)) 1); cbn [map app]; rewrite ?E1, ?E2; auto.
  Qed.

  (** the sides that are inside wind around the points of the region *)
  Lemma sides_wind q : zsum (edge_wind q) (inner_sides links) = wind (ch kR) q.
  Proof.
    unfold inner_sides, wind, SectorLemma.ch, WalkSides.ges. rewrite zsum_flat_map, !zsum_map. cbn [fst snd]. apply zsum_ext. intros l I. apply In_nth_error in I as (i & Hi).
    destruct (lk_eq g i l Hi) as [<- V]. destruct (HT i V) as [T B]. pose proof (top_bot g kR i) as E. change (l_seg (lk g i)) with (seg i). rewrite T, B in E.
    pose proof (am_wf _ (g_ambient g P) _ (seg_in g i V)) as W. unfold wf_xseg in W. cbn [WalkSides.seg l_seg sa sb] in W.
    assert (K : edge_wind q (l_a (lk g i), l_b (lk g i)) = if under (seg i) q then 1 else 0).
    { unfold edge_wind. cbn [fst snd]. change (XS (l_a (lk g i)) (l_b (lk g i))) with (seg i). destruct (under (seg i) q); auto.
      destruct (under (XS (l_b (lk g i)) (l_a (lk g i))) q) eqn:U; auto. exfalso. unfold under in U. apply andb_true_iff in U as [U _]. apply spans_iff in U. cbn [sa sb] in U.
      assert (Y : (qx (l_b (lk g i)) < qx (l_a (lk g i)))%Q) by lra. apply (proj1 (qz_lt _ _)) in Y. unfold pt_lt in W. lia. }
    rewrite zsum_app. destruct (N.testbit (l_fill (lk g i)) 0), (N.testbit (l_fill (lk g i)) 1); rewrite ?zsum_cons, ?zsum_nil, ?(edge_wind_anti q (l_b (lk g i))), ?K; cbn [bz] in E; destruct (under (seg i) q); lia.
  Qed.

  (** all steps of the contour are steps of one of the walks *)
  Definition from_walk (clockwise : bool) (c : list pt) : Prop := exists w, good_walk w /\ incl (left_edges clockwise c) (map (ed true) (snd w)).
  Lemma surj_seg (e : xseg) : e = XS (sa e) (sb e). Proof. destruct e; reflexivity. Qed.
  Lemma inner_nodup : NoDup (inner_sides links).
  Proof.
    rewrite <- ed_sides. assert (Nd : NoDup (filter (av F0) (all_sides g))) by (apply NoDup_filter, (all_nodup g)).
    assert (V : forall t, In t (filter (av F0) (all_sides g)) -> valid (fst t)) by (intros t I; apply filter_In in I as [_ I]; apply (used_valid g F0); apply (av_used g F0 L0); auto).
    revert Nd V. generalize (filter (av F0) (all_sides g)). intros l Nd V. induction Nd as [|t l Nt Nd IH]; [constructor|]. cbn [map]. constructor; [|apply IH; intros; apply V; right; auto].
    intro I. apply in_map_iff in I as (t' & E & I'). apply Nt. enough (X : t' = t) by (subst; auto). pose proof (V t (or_introl eq_refl)) as V1. pose proof (V t' (or_intror I')) as V2.
    rewrite !(ed_seg g pts G) in E by auto. cbn [Bool.eqb] in E. pose proof (am_wf _ (g_ambient g P) _ (seg_in g _ V1)) as W1. pose proof (am_wf _ (g_ambient g P) _ (seg_in g _ V2)) as W2. unfold wf_xseg in *.
    destruct t as [i b], t' as [i' b']. cbn [fst snd] in *. assert (Es : seg i' = seg i /\ b' = b).
    { clear - W1 W2 E. revert W1 W2 E. generalize (seg i) (seg i'). intros x y W1 W2 E. destruct b, b'; injection E as E1 E2; rewrite ?E1, ?E2 in *; try (exfalso; eapply pt_lt_irrefl, pt_lt_trans; eauto; fail).
      - split; auto. rewrite (surj_seg x), (surj_seg y). congruence.
      - split; auto. rewrite (surj_seg x), (surj_seg y). congruence. }
    destruct Es as [Es ->]. apply (seg_inj g P) in Es; auto. congruence.
  Qed.
  (** both directions of a step belong to one walk *)
  Definition walked_twice (d : pt * pt) : Prop := exists w, good_walk w /\ In d (map (ed true) (snd w)) /\ In (flip d) (map (ed true) (snd w)).
  (** all pieces *)
  Theorem slice_spec clockwise : exists ps spurs, slice_pieces g cwo clockwise 0 = Some ps /\ Forall walked_twice spurs /\
    Forall (fun p : bool * list pt => turns (if fst p then - sign_of clockwise else sign_of clockwise) (snd p) /\ NoDup (snd p) /\ (3 <= length (snd p))%nat /\ from_walk clockwise (snd p)) ps /\
    Permutation (flat_map (left_edges clockwise) (map snd ps) ++ flat_map both_ways spurs) (inner_sides links) /\
    forall q, contours_wind (map snd ps) q = sign_of clockwise * wind (ch kR) q.
  Proof.
    destruct (loop_ok g pts G P NDp F0 L0 Srt cwo 0) with (clockwise := clockwise) (fuel := S (3 * length links)) (i := 0%nat) (fills := F0) as (Ws & E & GW & ND & Av).
    - intros w H. destruct (walk_split w H) as (ls & sp & S). exists ls. apply (so_eq _ _ _ S).
    - intros; lia.
    - apply okF.
    - apply L0.
    - auto.
    - intros _. apply paired0.
    - pose proof (nav_max g F0 L0 F0) as NM. lia.
    - set (f := fun w : bool * list (nat * bool) => map (place_path cwo clockwise (fst w)) (loops_of g pts 0 w)) in E. set (ps := flat_map f Ws) in E.
      assert (Sp : exists spurs, Permutation (flat_map (left_edges clockwise) (map snd ps) ++ flat_map both_ways spurs) (map (ed true) (flat_map snd Ws)) /\ Forall walked_twice spurs /\
        Forall (fun p : bool * list pt => turns (if fst p then - sign_of clockwise else sign_of clockwise) (snd p) /\ NoDup (snd p) /\ (3 <= length (snd p))%nat /\ from_walk clockwise (snd p)) ps).
      { unfold ps. clear E ND Av ps. induction GW as [|w Ws H GW IH]; [exists []; split; [constructor|split; constructor]|]. destruct IH as (sp & Pe & Fs & Fo). destruct (walk_split w H) as (ls & sp' & S). exists (sp' ++ sp).
        assert (El : loops_of g pts 0 w = ls) by (unfold loops_of; rewrite (so_eq _ _ _ S); auto). cbn [flat_map]. unfold f at 1 3. rewrite El. split.
        - pose proof (walk_left w ls sp' clockwise H S) as Pw. rewrite !map_app, !flat_map_app, <- Pe, <- Pw.
          set (a := flat_map (left_edges clockwise) (map snd (map _ ls))). set (b := flat_map (left_edges clockwise) (map snd (flat_map f Ws))). rewrite <- !app_assoc. apply Permutation_app_head. rewrite !app_assoc. apply Permutation_app_tail. apply Permutation_app_comm.
        - split; [apply Forall_app; split; auto; apply Forall_forall; intros d Id; exists w; split; auto; split; apply (Permutation_in _ (walk_left w ls sp' clockwise H S)); apply in_or_app; right; apply in_flat_map; exists d; simpl; auto|].
          apply Forall_app. split; auto. apply Forall_forall. intros p Ip. apply in_map_iff in Ip as (c & <- & Ic). destruct (place_spec w ls sp' c clockwise H S Ic) as (h & -> & T). cbn [fst snd]. split; auto.
          pose proof (so_simple _ _ _ S) as F. rewrite Forall_forall in F. destruct (F c Ic) as [N L]. split; [destruct (Bool.eqb _ _); auto; apply NoDup_rev; auto|]. split; [destruct (Bool.eqb _ _); rewrite ?rev_length; auto|].
          exists w. split; auto. intros d Id. apply (Permutation_in _ (walk_left w ls sp' clockwise H S)). apply in_or_app. left. apply in_flat_map. exists (snd (place_path cwo clockwise (fst w) c)). split.
          + apply in_map, in_map. auto.
          + destruct (place_spec w ls sp' c clockwise H S Ic) as (h' & -> & _). exact Id. }
      destruct Sp as (spurs & Pe & Fs & Fo). exists ps, spurs.
      assert (PA : Permutation (flat_map snd Ws) (filter (av F0) (all_sides g))).
      { apply NoDup_Permutation; auto; [apply NoDup_filter, (all_nodup g)|]. intro t. rewrite Av, filter_In, (in_all g F0 L0). split; [|tauto]. intro A. split; auto. apply (used_valid g F0). apply (av_used g F0 L0). auto. }
      assert (PI : Permutation (flat_map (left_edges clockwise) (map snd ps) ++ flat_map both_ways spurs) (inner_sides links)).
      { rewrite Pe, PA, ed_sides. auto. }
      split; [exact E|]. split; [exact Fs|]. split; [exact Fo|]. split; [exact PI|]. intro q. rewrite <- sides_wind, <- (zsum_perm _ _ _ PI), zsum_app, both_wind, zsum_flat_map.
      unfold contours_wind. rewrite (zsum_ext (fun c => zsum (edge_wind q) (left_edges clockwise c)) (fun c => sign_of clockwise * contour_wind c q)) by (intros; apply left_wind). rewrite zsum_mult. unfold sign_of. destruct clockwise; lia.
  Qed.
End Main.
