(** * The vector extraction follows the contour extraction (main direction clockwise) as long as
    at most four selected edges meet in every vertex. *)
From Verif Require Import Base Spec QLib ModelSegm SegmProofs PlanarGeo PlanarSum ModelFill ModelFilter FillProofs FillCorrect CoreResults
  ModelGraph GraphProofs ModelExtract ExtractProofs ContourResults Rotation NextLink MoveLemma SectorLemma Sides WalkSides Orient Nest ModelBind ModelVector.
Open Scope Z_scope.

Section Paths.
  Variable g : graph.
  Notation links := (g_links g).

  (** vector [e] runs along link [i], in one of its directions *)
  Definition vmatch (e : vedge) (i : nat) : Prop :=
    exists l, nth_error links i = Some l /\ (e = vedge_new (l_fill l) (l_a l) (l_b l) \/ e = vedge_new (l_fill l) (l_b l) (l_a l)).

  Lemma vwalk_walk cw last : forall fuel lid node vis c u v, walk g fuel cw lid node last vis = Some (c, u, v) ->
    exists es, vwalk g fuel cw lid node last vis = Some (es, u, v) /\ map ve_a es = c /\ Forall2 vmatch es u.
  Proof.
    induction fuel as [|fuel IH]; intros lid node vis c u v H; cbn [walk vwalk] in *; destruct (node =? last)%nat; try discriminate.
    1,2: injection H as <- <- <-; exists []; auto.
    destruct (nth_error (g_nodes g) node) as [n|]; [|discriminate]. destruct (next_link g lid node cw n vis) as [i|]; [|discriminate].
    destruct (nth_error links i) as [l|] eqn:Hl; [|discriminate].
    destruct (l_aid l =? node)%nat.
    - destruct (walk g fuel cw i (l_bid l) last (visit i vis)) as [[[c' u'] v']|] eqn:W; [|discriminate]. injection H as <- <- <-.
      destruct (IH _ _ _ _ _ _ W) as (es & -> & <- & F). eexists. split; [reflexivity|]. split; [auto|]. constructor; auto. exists l. auto.
    - destruct (walk g fuel cw i (l_aid l) last (visit i vis)) as [[[c' u'] v']|] eqn:W; [|discriminate]. injection H as <- <- <-.
      destruct (IH _ _ _ _ _ _ W) as (es & -> & <- & F). eexists. split; [reflexivity|]. split; [auto|]. constructor; auto. exists l. auto.
  Qed.

  Lemma vpath_contour fuel hole cw l id vis c u v : nth_error links id = Some l -> get_contour g fuel (start_path hole l id) cw vis = Some (c, u, v) ->
    exists es, get_vector_path g fuel (vstart_of hole l id) cw vis = Some (es, u, v) /\ to_path es = c /\ Forall2 vmatch es u.
  Proof.
    intros Hl H. unfold get_contour, get_vector_path in *. destruct hole; cbn [start_path vstart_of sd_link sd_node sd_last sd_begin vs_link vs_node vs_last vs_a vs_b vs_fill] in *.
    - destruct (walk g fuel cw id (l_aid l) (l_bid l) (visit id vis)) as [[[c' u'] v']|] eqn:W; [|discriminate]. injection H as <- <- <-.
      destruct (vwalk_walk _ _ _ _ _ _ _ _ _ W) as (es & -> & <- & F). eexists. split; [reflexivity|]. split; [auto|]. constructor; auto. exists l. auto.
    - destruct (walk g fuel cw id (l_bid l) (l_aid l) (visit id vis)) as [[[c' u'] v']|] eqn:W; [|discriminate]. injection H as <- <- <-.
      destruct (vwalk_walk _ _ _ _ _ _ _ _ _ W) as (es & -> & <- & F). eexists. split; [reflexivity|]. split; [auto|]. constructor; auto. exists l. auto.
  Qed.

  (** the same path, as points and as vectors *)
  Definition vp_of (p : piece) (v : vpiece) : Prop :=
    vp_hole v = p_hole p /\ to_path (vp_path v) = p_raw p /\ vp_used v = p_used p /\ Forall2 vmatch (vp_path v) (vp_used v).

  Lemma vskip r vis fuel : forall d k, (forall i, (k <= i < k + d)%nat -> is_visited vis i = true) -> (k + d <= length vis)%nat ->
    vector_loop g (d + fuel) r k vis = vector_loop g fuel r (k + d) vis.
  Proof.
    induction d as [|d IH]; intros k V L; [rewrite Nat.add_0_r; auto|]. cbn [Nat.add vector_loop].
    destruct (Nat.leb_spec (length vis) k); [lia|]. rewrite V by lia. rewrite IH; [f_equal; lia| |lia]. intros i Hi. apply V. lia.
  Qed.
  Variable clean : bool -> list pt -> list pt * bool.
  Lemma eskip r cw s ma vis ps : forall d fuel k, (forall i, (k <= i < k + d)%nat -> is_visited vis i = true) -> (k + d <= length vis)%nat ->
    extract_loop g clean fuel r cw s ma k vis = Some ps -> exists fuel2, (fuel2 <= fuel)%nat /\ extract_loop g clean fuel2 r cw s ma (k + d) vis = Some ps.
  Proof.
    induction d as [|d IH]; intros fuel k V L H; [rewrite Nat.add_0_r; eauto|]. destruct fuel as [|fuel]; cbn [extract_loop] in H.
    - destruct (Nat.leb_spec (length vis) k); [lia|discriminate].
    - destruct (Nat.leb_spec (length vis) k); [lia|]. rewrite V in H by lia.
      destruct (IH fuel (S k)) as (f2 & Lf & H2); [intros i Hi; apply V; lia|lia|auto|]. exists f2. split; [lia|]. rewrite <- H2. f_equal. lia.
  Qed.

  Lemma deg_after vis vis' u n : flags_after vis vis' u -> (deg vis' n <= deg vis n)%nat.
  Proof.
    intros F. unfold deg. induction (node_links n) as [|i l IH]; simpl; auto.
    destruct (not_visited vis' i) eqn:E'; [|destruct (not_visited vis i); simpl; lia].
    apply (flags_trans _ _ _ F) in E' as [E' _]. rewrite E'. simpl. lia.
  Qed.
  Lemma deg_after_lt vis vis' u n t : flags_after vis vis' u -> In t u -> not_visited vis t = true -> In t (node_links n) -> (deg vis' n < deg vis n)%nat.
  Proof.
    intros F It Ut. pose proof (deg_after vis vis' u) as M. unfold deg in *. induction (node_links n) as [|i l IH]; intro I; [destruct I|].
    assert (Le : (length (filter (not_visited vis') l) <= length (filter (not_visited vis) l))%nat) by (exact (M (Cross l) F)).
    simpl. destruct I as [->|I].
    - rewrite Ut. destruct (not_visited vis' t) eqn:E'; [apply (flags_trans _ _ _ F) in E' as [_ E']; contradiction|]. simpl. lia.
    - specialize (IH I). destruct (not_visited vis' i) eqn:E'; [apply (flags_trans _ _ _ F) in E' as [E' _]; rewrite E'; simpl; lia|].
      destruct (not_visited vis i); simpl; lia.
  Qed.
End Paths.

(** [lia] without the boolean hypotheses, which slow it down *)
Ltac nlia := repeat match goal with H : @eq bool _ _ |- _ => clear H end; lia.
Section Sync.
  Variable g : graph.
  Variable pts : list pt.
  Hypothesis G : graph_wf g pts.
  Hypothesis P : links_planar (g_links g).
  Hypothesis NDp : NoDup pts.
  Hypothesis Srt : forall i j, (i <= j)%nat -> valid g j -> ~ pt_lt (sa (seg g j)) (sa (seg g i)).
  Notation links := (g_links g).
  Notation valid := (valid g).
  Notation seg := (seg g).
  Notation lk := (lk g).
  Notation na := (na g).
  Variable r : OverlayRule.
  Variable clean : bool -> list pt -> list pt * bool.

  Lemma upper_unique p t t' : valid t -> valid t' -> sa (seg t) = p -> sa (seg t') = p ->
    vx (vsub (sb (seg t)) p) (vsub (sb (seg t')) p) <= 0 -> vx (vsub (sb (seg t')) p) (vsub (sb (seg t)) p) <= 0 -> t = t'.
  Proof.
    intros V V' S S' L L'. destruct (Nat.eq_dec t t') as [|N]; auto. exfalso. rewrite vx_anti in L'.
    assert (Z0 : vx (vsub (sb (seg t)) p) (vsub (sb (seg t')) p) = 0) by nlia.
    pose proof (seg_lexpos g P t V) as X. pose proof (seg_lexpos g P t' V') as X'. rewrite S in X. rewrite S' in X'.
    assert (Ns : seg t <> seg t') by (intro E; apply N, (seg_inj g P); auto).
    apply (dir_sep (ges g) (g_ambient g P) p (seg t) (seg t') (seg_in g t V) (seg_in g t' V') Ns (or_introl S) (or_introl S')).
    unfold dir, other. rewrite S, S', pt_eqb_refl. split; auto. apply lex_dot; auto.
  Qed.

  Lemma vector_sync : forall fuel k vis ps, all_even g vis -> length vis = length links -> vis_min vis k ->
    (forall j n, nth_error (g_nodes g) j = Some n -> (deg vis n <= 4)%nat) ->
    extract_loop g clean fuel r true false 0 k vis = Some ps -> (forall p, In p ps -> p_valid p = true) ->
    forall fuel', (length vis - k <= fuel')%nat -> exists vps, vector_loop g fuel' r k vis = Some vps /\ Forall2 (vp_of g) ps vps.
  Proof.
    induction fuel as [fuel IH] using lt_wf_ind. intros k vis ps Ev Len Mn D4 H Va fuel' Lf.
    assert (Stop : (length vis <= k)%nat -> exists vps, vector_loop g fuel' r k vis = Some vps /\ Forall2 (vp_of g) ps vps).
    { intro L. exists []. destruct fuel; cbn [extract_loop] in H; destruct (Nat.leb_spec (length vis) k); try nlia; injection H as <-; (split; [|constructor]); destruct fuel'; cbn [vector_loop]; destruct (Nat.leb_spec (length vis) k); auto; nlia. }
    destruct (le_lt_dec (length vis) k) as [L|L]; [auto|]. clear Stop.
    destruct fuel as [|fuel]; cbn [extract_loop] in H; destruct (Nat.leb_spec (length vis) k); try nlia; try discriminate.
    destruct fuel' as [|fuel']; [nlia|]. cbn [vector_loop]. destruct (Nat.leb_spec (length vis) k); try nlia.
    destruct (is_visited vis k) eqn:Vk.
    { apply (IH fuel (Nat.lt_succ_diag_r _) (S k) vis ps); auto; [|nlia]. intros i U. pose proof (Mn i U). destruct (Nat.eq_dec i k) as [->|]; [unfold not_visited in U; rewrite Vk in U; discriminate|nlia]. }
    assert (Uk : not_visited vis k = true) by (unfold not_visited; rewrite Vk; auto).
    assert (Vk' : valid k) by (unfold WalkSides.valid; nlia).
    destruct (left_top_upper g pts G P NDp Srt vis k Ev Mn Vk' Uk) as (t & Ft & Vt & Ut & St & Tt). rewrite Ft, (lk_nth g t Vt) in *.
    set (hole := is_fill_top r (l_fill (lk t))) in *. assert (Ed : Bool.eqb hole true = hole) by (destruct hole; auto). rewrite Ed in H.
    destruct (contour_spec g pts G (length vis) hole hole (lk t) t vis Ev Ut (lk_nth g t Vt) Len) as (raw & u & vis' & Gc & Fe & Nd & Uu & Fl & Ev' & _).
    { pose proof (ucount_le vis). nlia. }
    rewrite Gc in H. destruct (vpath_contour g _ _ _ _ _ _ _ _ _ (lk_nth g t Vt) Gc) as (es & -> & Te & Me).
    destruct (clean false raw) as [cc m0] eqn:Ecl.
    destruct (extract_loop g clean fuel r true false 0 (if is_valid 0 cc then k else S k) vis') as [ps'|] eqn:Hl; [|discriminate].
    injection H as <-. assert (Vl : is_valid 0 cc = true) by (apply (Va _ (or_introl eq_refl))). rewrite Vl in *.
    assert (Va' : forall p, In p ps' -> p_valid p = true) by (intros; apply Va; right; auto).
    assert (Fi : length vis' = length vis) by apply Fl.
    assert (Mn' : vis_min vis' k) by (intros i U; apply Mn; apply (flags_trans _ _ _ Fl) in U; tauto).
    assert (D4' : forall j n, nth_error (g_nodes g) j = Some n -> (deg vis' n <= 4)%nat) by (intros j n Hn; pose proof (deg_after _ _ _ n Fl); specialize (D4 j n Hn); nlia).
    assert (Done : forall vps, Forall2 (vp_of g) ps' vps -> Forall2 (vp_of g) (Pc hole true raw cc m0 (t :: u) :: ps') (VP hole es (t :: u) :: vps)).
    { intros vps F. constructor; auto. repeat split; auto. }
    destruct (is_visited vis' k) eqn:Vk2.
    - (* in step *)
      destruct (eskip g clean r true false 0 vis' ps' 1 fuel k) as (f2 & Lf2 & H2); auto; [intros i Hi; replace i with k by nlia; auto|nlia|]. rewrite Nat.add_1_r in H2.
      destruct (IH f2) with (k := S k) (vis := vis') (ps := ps') (fuel' := fuel') as (vps & -> & F); auto; [nlia|congruence| |nlia|eauto].
      intros i U. pose proof (Mn' i U). destruct (Nat.eq_dec i k) as [->|]; [unfold not_visited in U; rewrite Vk2 in U; discriminate|nlia].
    - (* the link under the index was not used: another path through the same vertex remains *)
      assert (Uk2 : not_visited vis' k = true) by (unfold not_visited; rewrite Vk2; auto).
      destruct (gw_link _ _ G k _ (lk_nth g k Vk')) as (_ & Pk & _ & n & _ & Hn & _).
      destruct (gw_node _ _ G _ n Hn) as [Nn Mm].
      assert (Atn : forall x, valid x -> sa (seg x) = sa (seg k) -> In x (node_links n)).
      { intros x Vx Sx. apply Mm. exists (lk x). split; [apply lk_nth; auto|]. left.
        destruct (node_pts g pts G x Vx) as (Px & _). destruct (node_pts g pts G k Vk') as (Pk' & _). eapply (pn_inj pts NDp); eauto. }
      assert (Low : forall x, In x (node_links n) -> not_visited vis' x = true -> valid x /\ sa (seg x) = sa (seg k)).
      { intros x I U. apply Mm in I as (l & Hlx & El). apply lk_eq in Hlx as [El2 Vx]. split; auto. rewrite <- (pn_a g pts G x Vx), <- (pn_a g pts G k Vk'). f_equal.
        apply (min_a g pts G P Srt vis'); auto. unfold at_node, WalkSides.na, WalkSides.nb. rewrite El2. exact El. }
      assert (D2 : deg vis' n = 2%nat).
      { pose proof (deg_after_lt vis vis' _ n t Fl (or_introl eq_refl) Ut (Atn t Vt St)). specialize (D4 _ _ Hn). specialize (Ev' _ _ Hn).
        assert (1 <= deg vis' n)%nat. { unfold deg. pose proof (Atn k Vk' eq_refl) as I. assert (If : In k (filter (not_visited vis') (node_links n))) by (apply filter_In; auto). destruct (filter _ _); [destruct If|simpl; nlia]. }
        destruct (deg vis' n) as [|[|[|[|?]]]]; try discriminate; nlia. }
      assert (Two : exists m, m <> k /\ forall x, In x (node_links n) /\ not_visited vis' x = true <-> x = k \/ x = m).
      { unfold deg in D2. pose proof (NoDup_filter (not_visited vis') Nn) as Nf. assert (If : In k (filter (not_visited vis') (node_links n))) by (apply filter_In; auto).
        setoid_rewrite <- filter_In. destruct (filter (not_visited vis') (node_links n)) as [|x [|y [|z l]]]; try discriminate.
        inversion Nf as [|? ? N1 _]; subst. destruct If as [->|[->|[]]]; [exists y|exists x]; (split; [intros ->; apply N1; simpl; auto|]); intro w; simpl; intuition congruence. }
      destruct Two as (m & Nm & Two). destruct (proj2 (Two m) (or_intror eq_refl)) as [Im Um]. destruct (Low m Im Um) as [Vm Sm].
      assert (Lkm : (k < m)%nat) by (pose proof (Mn' m Um); nlia).
      assert (Gap : forall i, (k < i < m)%nat -> is_visited vis' i = true).
      { intros i Hi. destruct (is_visited vis' i) eqn:X; auto. exfalso. assert (Ui : not_visited vis' i = true) by (unfold not_visited; rewrite X; auto).
        assert (Vi : valid i) by (unfold WalkSides.valid in *; nlia).
        assert (Si : sa (seg i) = sa (seg k)).
        { pose proof (Srt k i ltac:(nlia) Vi) as A1. pose proof (Srt i m ltac:(nlia) Vm) as A2. rewrite Sm in A2.
          destruct (sa (seg i)) as [x1 y1], (sa (seg k)) as [x2 y2]. unfold pt_lt in *. cbn [px py] in *. f_equal; nlia. }
        pose proof (proj1 (Two i) (conj (Atn i Vi Si) Ui)). nlia. }
      destruct (left_top_upper g pts G P NDp Srt vis' k Ev' Mn' Vk' Uk2) as (t2 & Ft2 & Vt2 & Ut2 & St2 & Tt2).
      assert (Lm : vis_low g vis' m).
      { intros i Vi Ui. rewrite Sm. apply Srt; auto. }
      destruct (left_top_upper_low g pts G P NDp vis' m Ev' Lm Vm Um) as (t3 & Ft3 & Vt3 & Ut3 & St3 & Tt3).
      assert (Et : t3 = t2).
      { apply (upper_unique (sa (seg k))); auto; [congruence| |].
        - rewrite Sm in Tt3. apply Tt3; auto.
        - apply Tt2; auto. congruence. }
      subst t3.
      destruct fuel as [|fuel]; cbn [extract_loop] in Hl; destruct (Nat.leb_spec (length vis') k); try nlia; try discriminate.
      rewrite Vk2, Ft2, (lk_nth g t2 Vt2) in Hl.
      set (hole2 := is_fill_top r (l_fill (lk t2))) in *. assert (Ed2 : Bool.eqb hole2 true = hole2) by (destruct hole2; auto). rewrite Ed2 in Hl.
      assert (Len' : length vis' = length links) by congruence.
      destruct (contour_spec g pts G (length vis') hole2 hole2 (lk t2) t2 vis' Ev' Ut2 (lk_nth g t2 Vt2) Len') as (raw2 & u2 & vis2 & Gc2 & Fe2 & Nd2 & Uu2 & Fl2 & Ev2 & _).
      { pose proof (ucount_le vis'). nlia. }
      rewrite Gc2 in Hl. destruct (vpath_contour g _ _ _ _ _ _ _ _ _ (lk_nth g t2 Vt2) Gc2) as (es2 & Hes2 & Te2 & Me2).
      destruct (clean false raw2) as [cc2 m2] eqn:Ecl2.
      destruct (extract_loop g clean fuel r true false 0 (if is_valid 0 cc2 then k else S k) vis2) as [ps2|] eqn:Hl2; [|discriminate].
      injection Hl as <-. assert (Vl2 : is_valid 0 cc2 = true) by (apply (Va' _ (or_introl eq_refl))). rewrite Vl2 in *.
      assert (Vis2 : forall i, (k <= i <= m)%nat -> is_visited vis2 i = true).
      { assert (D0 : deg vis2 n = O).
        { pose proof (deg_after_lt vis' vis2 _ n t2 Fl2 (or_introl eq_refl) Ut2 (Atn t2 Vt2 St2)). specialize (Ev2 _ _ Hn). destruct (deg vis2 n) as [|[|?]]; try discriminate; nlia. }
        intros i Hi. destruct (is_visited vis2 i) eqn:X; auto. exfalso. assert (Ui : not_visited vis2 i = true) by (unfold not_visited; rewrite X; auto).
        assert (Ii : In i (node_links n)).
        { destruct (Nat.eq_dec i k) as [->|]; [apply Atn; auto|]. destruct (Nat.eq_dec i m) as [->|]; [auto|].
          apply (flags_trans _ _ _ Fl2) in Ui as [Ui _]. unfold not_visited in Ui. rewrite Gap in Ui by nlia. discriminate. }
        unfold deg in D0. assert (If : In i (filter (not_visited vis2) (node_links n))) by (apply filter_In; auto). destruct (filter _ _); [destruct If|discriminate]. }
      assert (Lm' : (m < length vis')%nat) by (unfold WalkSides.valid in Vm; nlia).
      assert (Fi2 : length vis2 = length vis') by apply Fl2.
      destruct (eskip g clean r true false 0 vis2 ps2 (S m - k) fuel k) as (f2 & Lf2 & H2); auto; [intros i Hi; apply Vis2; nlia|nlia|]. replace (k + (S m - k))%nat with (S m) in H2 by nlia.
      (* the vector loop *)
      replace fuel' with ((m - S k) + (fuel' - (m - S k)))%nat by nlia. rewrite vskip; [|intros i Hi; apply Gap; nlia|nlia].
      replace (S k + (m - S k))%nat with m by nlia. destruct (fuel' - (m - S k))%nat as [|f3] eqn:Ef; [nlia|]. cbn [vector_loop].
      destruct (Nat.leb_spec (length vis') m); [nlia|]. assert (Vm2 : is_visited vis' m = false) by (unfold not_visited in Um; apply negb_true_iff in Um; auto).
      rewrite Vm2, Ft3, (lk_nth g t2 Vt2). fold hole2. rewrite Hes2.
      destruct (IH f2) with (k := S m) (vis := vis2) (ps := ps2) (fuel' := f3) as (vps & -> & F); auto; [nlia|congruence| | |intros p Ip; apply Va'; right; auto|nlia|].
      + intros i U. assert (k <= i)%nat by (apply Mn'; apply (flags_trans _ _ _ Fl2) in U; tauto). destruct (le_lt_dec i m); [|nlia].
        unfold not_visited in U. rewrite Vis2 in U by nlia. discriminate.
      + intros j n' Hn'. pose proof (deg_after _ _ _ n' Fl2). specialize (D4' j n' Hn'). nlia.
      + eexists. split; [reflexivity|]. apply Done. constructor; auto. repeat split; auto.
  Qed.
End Sync.
