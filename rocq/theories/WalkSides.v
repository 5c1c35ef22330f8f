(** * Winding numbers along an extracted contour. *)
From Verif Require Import Base Spec QLib SegmProofs PlanarGeo PlanarSum FillProofs FillCorrect ModelGraph GraphProofs ModelExtract ExtractProofs Rotation NextLink MoveLemma SectorLemma Sides.
Open Scope Z_scope.

(** ** cyclic order *)
Lemma ccw_cyc a x b : a <> (0, 0) -> b <> (0, 0) -> ~ same_ray a b -> ccw_between a x b -> ccw_between b x a -> False.
Proof.
  intros Na Nb Ns. unfold ccw_between. rewrite (vx_anti b a), (vx_anti x a), (vx_anti b x).
  destruct (Z.ltb_spec 0 (vx a b)), (Z.ltb_spec 0 (- vx a b)), (Z.eqb_spec (vx a b) 0), (Z.eqb_spec (- vx a b) 0); try lia.
  destruct (opp_ray a b e (not_same _ _ Ns e) Na Nb) as (m & n & Hm & Hn & F1 & F2). pose proof (opp_vx _ _ _ _ x F1 F2) as F.
  rewrite (vx_anti b x) in F. nia.
Qed.
Lemma before_cyc s a x b : (s = 1 \/ s = -1) -> a <> (0, 0) -> b <> (0, 0) -> x <> (0, 0) -> ~ same_ray a b -> ~ same_ray a x -> ~ same_ray b x ->
  before s a x b -> before s b x a -> False.
Proof.
  intros Hs Na Nb Nx Sab Sax Sbx B1 B2.
  assert (Sy : forall u w, ~ same_ray u w -> ~ same_ray w u) by (intros u w N [E D]; apply N; split; [rewrite vx_anti; lia|unfold dot in *; lia]).
  apply (before_between s Hs a Na) in B1; [|split; auto|split; auto|auto].
  apply (before_between s Hs b Nb) in B2; [|split; auto|split; auto|auto].
  unfold between in *. destruct (s =? 1).
  - eapply (ccw_cyc b x a); eauto.
  - eapply (ccw_cyc a x b); eauto.
Qed.
(** the first direction of a list *)
Lemma pick_first s a (D : nat -> vec) (l : list nat) : (s = 1 \/ s = -1) -> a <> (0, 0) -> l <> [] ->
  (forall y, In y l -> okv a (D y)) -> (forall y z, In y l -> In z l -> y <> z -> ~ same_ray (D y) (D z)) ->
  exists e, In e l /\ forall y, In y l -> y <> e -> before s a (D e) (D y).
Proof.
  intros Hs Na. induction l as [|x l IH]; [congruence|]. intros _ O Sp. destruct l as [|y l].
  - exists x. split; [left; auto|]. intros y [<-|[]] N. congruence.
  - destruct IH as (e & Ie & M); [discriminate|intros; apply O; right; auto|intros; apply Sp; auto; right; auto|].
    destruct (Nat.eq_dec x e) as [->|N]; [exists e; split; [left; auto|]; intros z [<-|I] Nz; [congruence|auto]|].
    destruct (before_total s Hs a Na (D x) (D e)) as [L|L]; try (apply O; auto; [left; auto|right; auto]); auto.
    + apply O. left. auto.
    + apply O. right. auto.
    + apply Sp; auto; [left; auto|right; auto].
    + exists x. split; [left; auto|]. intros z [<-|I] Nz; [congruence|]. destruct (Nat.eq_dec z e) as [->|]; auto.
      eapply before_trans; [exact Hs|exact Na| | | |exact L|apply M; auto]; apply O; auto; [left; auto|right; auto|right; auto].
    + exists e. split; [right; auto|]. intros z [<-|I] Nz; auto.
Qed.

Section Amb.
  Variable g : graph.
  Variable pts : list pt.
  Hypothesis G : graph_wf g pts.
  Hypothesis P : links_planar (g_links g).
  Hypothesis NDp : NoDup pts.
  Notation links := (g_links g).
  Notation nodes := (g_nodes g).

  Definition lk (i : nat) : link := nth i links (Lk 0 (Pt 0 0) 0 (Pt 0 0) 0%N).
  Definition seg (i : nat) : xseg := l_seg (lk i).
  Definition ges : list xseg := map l_seg links.
  Definition valid (i : nat) : Prop := (i < length links)%nat.
  Lemma lk_nth i : valid i -> nth_error links i = Some (lk i).
  Proof. intro H. unfold lk. apply nth_error_nth'. auto. Qed.
  Lemma lk_eq i l : nth_error links i = Some l -> lk i = l /\ valid i.
  Proof. intro H. split; [unfold lk; apply nth_error_nth; auto|]. unfold valid. apply nth_error_Some. congruence. Qed.
  Lemma seg_in i : valid i -> In (seg i) ges.
  Proof. intro H. apply (in_map l_seg). apply lk_nth in H. eapply nth_error_In; eauto. Qed.
  Lemma in_seg e : In e ges -> exists i, valid i /\ e = seg i.
  Proof. intro I. apply in_map_iff in I as (l & <- & I). apply In_nth_error in I as (i & H). exists i. apply lk_eq in H as [H V]. split; auto. unfold seg. congruence. Qed.
  Lemma seg_inj i j : valid i -> valid j -> seg i = seg j -> i = j.
  Proof.
    intros Vi Vj E. destruct (Nat.eq_dec i j); auto. exfalso.
    destruct (lp_sep _ P i j _ _ (lk_nth i Vi) (lk_nth j Vj) n) as [S _]. auto.
  Qed.
  Lemma g_ambient : ambient ges.
  Proof.
    constructor.
    - intros e I. apply in_seg in I as (i & V & ->). apply (lp_wf _ P i). apply lk_nth; auto.
    - apply NoDup_nth_error. intros i j Hi E. unfold ges in *. rewrite map_length in Hi. rewrite !nth_error_map, (lk_nth i Hi) in E. simpl in E.
      destruct (nth_error links j) as [l|] eqn:Hj; [|discriminate]. simpl in E. assert (E' : l_seg (lk i) = l_seg l) by congruence. clear E. apply lk_eq in Hj as [Hj Vj]. apply seg_inj; auto. unfold seg. congruence.
    - intros s t I J N. apply in_seg in I as (i & Vi & ->). apply in_seg in J as (j & Vj & ->).
      assert (Nij : i <> j) by congruence. destruct (lp_sep _ P i j _ _ (lk_nth i Vi) (lk_nth j Vj) Nij) as [_ S]. exact S.
  Qed.

  (** nodes and their points *)
  Definition pn (k : nat) : pt := nth k pts (Pt 0 0).
  Definition na (i : nat) : nat := l_aid (lk i).
  Definition nb (i : nat) : nat := l_bid (lk i).
  Definition at_node (k i : nat) : Prop := na i = k \/ nb i = k.
  Lemma node_pts i : valid i -> nth_error pts (na i) = Some (sa (seg i)) /\ nth_error pts (nb i) = Some (sb (seg i)) /\ na i <> nb i.
  Proof. intro V. destruct (gw_link _ _ G i _ (lk_nth i V)) as (A & B & C & _). auto. Qed.
  Lemma pn_a i : valid i -> pn (na i) = sa (seg i).
  Proof. intro V. destruct (node_pts i V) as (A & B & C). unfold pn. apply nth_error_nth; auto. Qed.
  Lemma pn_b i : valid i -> pn (nb i) = sb (seg i).
  Proof. intro V. destruct (node_pts i V) as (A & B & C). unfold pn. apply nth_error_nth; auto. Qed.
  Lemma pn_node i k : valid i -> at_node k i -> nth_error pts k = Some (pn k).
  Proof. intros V A. destruct (node_pts i V) as (Pa & Pb & _). destruct A as [<-|<-]; [rewrite pn_a|rewrite pn_b]; auto. Qed.
  Lemma pn_inj k k' p p' : nth_error pts k = Some p -> nth_error pts k' = Some p' -> p = p' -> k = k'.
  Proof. intros A B ->. apply (proj1 (NoDup_nth_error pts) NDp); [apply nth_error_Some; congruence|congruence]. Qed.
  Lemma at_node_v k i : valid i -> at_node k i -> at_v (pn k) (seg i).
  Proof. intros V [<-|<-]; [left; rewrite pn_a|right; rewrite pn_b]; auto. Qed.
  Lemma at_v_node k i j : valid i -> valid j -> at_node k j -> at_v (pn k) (seg i) -> at_node k i.
  Proof.
    intros Vi Vj A. pose proof (pn_node j k Vj A) as Pk. destruct (node_pts i Vi) as (Pa & Pb & _). intros [E|E]; [left|right]; eapply pn_inj; eauto.
  Qed.
  Lemma sa_node k i : valid i -> at_node k i -> pt_eqb (sa (seg i)) (pn k) = (na i =? k)%nat.
  Proof.
    intros V A. pose proof (pn_node i k V A) as Pk. destruct (node_pts i V) as (Pa & Pb & N).
    destruct (Nat.eqb_spec (na i) k) as [<-|Nk].
    - rewrite pn_a by auto. apply pt_eqb_refl.
    - destruct (pt_eqb (sa (seg i)) (pn k)) eqn:E; auto. apply pt_eqb_eq in E. exfalso. apply Nk. eapply pn_inj; eauto.
  Qed.
  Lemma dirn_dir k i : valid i -> at_node k i -> dirn g k (pn k) i = dir (pn k) (seg i).
  Proof.
    intros V A. unfold dirn. rewrite (lk_nth i V). unfold dir, other. rewrite sa_node by auto. unfold l_other, na. auto.
  Qed.

  Notation top k i := (top ges k (seg i)).
  Notation bot k i := (bot ges k (seg i)).
  Notation ch := (ch ges).
  Definition nd (k i : nat) : vec := dir (pn k) (seg i).
  Lemma nd_nz k i : valid i -> at_node k i -> nd k i <> (0, 0).
  Proof. intros V A. apply (dir_nz ges g_ambient); auto using seg_in, at_node_v. Qed.
  Lemma nd_sep k i j : valid i -> valid j -> i <> j -> at_node k i -> at_node k j -> ~ same_ray (nd k i) (nd k j).
  Proof. intros Vi Vj N A B. apply (dir_sep ges g_ambient); auto using seg_in, at_node_v. intro E. apply N. apply seg_inj; auto. Qed.

  (** the sector between consecutive links *)
  Lemma sector_cw cw k node i j : balanced (ch k) -> valid i -> valid j -> i <> j -> at_node node i -> at_node node j ->
    (forall u, valid u -> k (seg u) <> 0 -> u <> i -> u <> j -> at_node node u -> before (rf cw) (nd node i) (nd node j) (nd node u)) ->
    side_at ges k (pn node) (- rf cw) (seg i) = side_at ges k (pn node) (rf cw) (seg j).
  Proof.
    intros B Vi Vj N Ai Aj F.
    assert (Key : forall x, In x ges -> at_v (pn node) x -> k x <> 0 -> x <> seg i -> x <> seg j -> ~ between cw (nd node i) (dir (pn node) x) (nd node j)).
    { intros x Ix Hx Kx Ni Nj Bt. apply in_seg in Ix as (u & Vu & ->).
      assert (Au : at_node node u) by (exact (at_v_node node u i Vu Vi Ai Hx)).
      assert (Nui : u <> i) by congruence. assert (Nuj : u <> j) by congruence.
      pose proof (F u Vu Kx Nui Nuj Au) as Bf. revert Bf. apply before_asym. 
      apply (before_between (rf cw) (rf_cases cw) (nd node i)).
      - apply nd_nz; auto.
      - split; [apply nd_nz; auto|apply nd_sep; auto].
      - split; [apply nd_nz; auto|apply nd_sep; auto].
      - apply nd_sep; auto.
      - unfold nd. destruct cw; exact Bt. }
    assert (NE : seg i <> seg j) by (intro E; apply N; apply seg_inj; auto).
    destruct cw; cbn [rf Z.opp].
    - symmetry. apply (sector ges g_ambient); auto using seg_in, at_node_v.
      intros x Ix Hx Kx Nj Ni. exact (Key x Ix Hx Kx Ni Nj).
    - change (- (-1)) with 1. apply (sector ges g_ambient); auto using seg_in, at_node_v.
  Qed.

  (** ** one contour *)
  Section Walk.
    Variable vis0 : list bool.
    Variable cw : bool.
    Variable Lw : Z.
    Hypothesis HL : Lw = 1 \/ Lw = -1.
    Variable kR : nat -> Z.
    Variable kU : xseg -> Z.
    Hypothesis KU : forall i, valid i -> kU (seg i) = if not_visited vis0 i then kR i else 0.
    Hypothesis BU : balanced (ch kU).
    Hypothesis Hk : forall i, valid i -> not_visited vis0 i = true -> kR i = 1 \/ kR i = -1.
    Hypothesis Bnd : forall i, valid i -> not_visited vis0 i = true -> -1 <= top kU i <= 1 /\ -1 <= bot kU i <= 1.
    Variables e0 last : nat.

    (** direction of travel: [true] from the lesser to the greater end *)
    Definition tau (i : nat) : bool := kR i =? rf cw * Lw.
    Definition hd (i : nat) : nat := if tau i then nb i else na i.
    Definition tl (i : nat) : nat := if tau i then na i else nb i.
    (** value on the swept side and on the other side *)
    Definition sw (k : xseg -> Z) (i : nat) : Z := if Bool.eqb (tau i) cw then top k i else bot k i.
    Definition ow (k : xseg -> Z) (i : nat) : Z := if Bool.eqb (tau i) cw then bot k i else top k i.
    Lemma at_hd i : at_node (hd i) i. Proof. unfold hd, at_node. destruct (tau i); auto. Qed.
    Lemma at_tl i : at_node (tl i) i. Proof. unfold tl, at_node. destruct (tau i); auto. Qed.
    Lemma hd_tl i : valid i -> hd i <> tl i.
    Proof. intro V. destruct (node_pts i V) as (_ & _ & N). unfold hd, tl. destruct (tau i); auto. Qed.
    Lemma rf_b : (rf cw =? 1) = cw. Proof. destruct cw; auto. Qed.
    Lemma rf_b' : (- rf cw =? 1) = negb cw. Proof. destruct cw; auto. Qed.
    Lemma side_tl k i : valid i -> side_at ges k (pn (tl i)) (rf cw) (seg i) = sw k i.
    Proof.
      intro V. unfold side_at. rewrite (sa_node _ _ V (at_tl i)), rf_b. unfold sw, tl. destruct (node_pts i V) as (_ & _ & N).
      destruct (tau i); [rewrite Nat.eqb_refl; auto|]. rewrite (proj2 (Nat.eqb_neq _ _) N). auto.
    Qed.
    Lemma side_hd k i : valid i -> side_at ges k (pn (hd i)) (- rf cw) (seg i) = sw k i.
    Proof.
      intro V. unfold side_at. rewrite (sa_node _ _ V (at_hd i)), rf_b'. unfold sw, hd. destruct (node_pts i V) as (_ & _ & N).
      destruct (tau i); [rewrite (proj2 (Nat.eqb_neq _ _) N)|rewrite Nat.eqb_refl]; destruct cw; auto.
    Qed.
    Lemma side_hd' k i : valid i -> side_at ges k (pn (hd i)) (rf cw) (seg i) = ow k i.
    Proof.
      intro V. unfold side_at. rewrite (sa_node _ _ V (at_hd i)), rf_b. unfold ow, hd. destruct (node_pts i V) as (_ & _ & N).
      destruct (tau i); [rewrite (proj2 (Nat.eqb_neq _ _) N)|rewrite Nat.eqb_refl]; destruct cw; auto.
    Qed.
    Lemma top_bot k i : top k i = bot k i + k (seg i).
    Proof. reflexivity. Qed.
    Lemma ow_sw i : valid i -> not_visited vis0 i = true -> ow kU i = sw kU i - Lw.
    Proof.
      intros V U. pose proof (top_bot kU i) as E. rewrite (KU i V), U in E. unfold ow, sw, tau. destruct (Hk i V U) as [K|K]; rewrite K in *;
        destruct HL as [-> | ->], cw; cbn [rf Bool.eqb] in *; simpl; lia.
    Qed.
    (** if the swept side has value [Lw] when leaving [node] along [j] then [j] is traversed in its direction *)
    Lemma tau_ok j node : valid j -> not_visited vis0 j = true -> at_node node j -> side_at ges kU (pn node) (rf cw) (seg j) = Lw -> tl j = node.
    Proof.
      intros V U A S. unfold side_at in S. rewrite (sa_node _ _ V A), rf_b in S.
      pose proof (top_bot kU j) as E. rewrite (KU j V), U in E. destruct (Bnd j V U) as [B1 B2].
      destruct (node_pts j V) as (_ & _ & N). unfold tl, tau.
      destruct (Nat.eqb_spec (na j) node) as [Ea|Ea].
      - destruct (Hk j V U) as [K|K]; rewrite K in *; destruct HL as [-> | ->], cw; cbn [rf Bool.eqb] in *; simpl; auto; exfalso; lia.
      - destruct A as [A|A]; [congruence|].
        destruct (Hk j V U) as [K|K]; rewrite K in *; destruct HL as [-> | ->], cw; cbn [rf Bool.eqb] in *; simpl; auto; exfalso; lia.
    Qed.

    Definition first (i x : nat) : Prop := forall u, valid u -> not_visited vis0 u = true -> u <> i -> u <> x -> at_node (hd i) u ->
      before (rf cw) (nd (hd i) i) (nd (hd i) x) (nd (hd i) u).
    Definition off (k : xseg -> Z) (W : list nat) : Prop := forall i, valid i -> k (seg i) <> 0 -> not_visited vis0 i = true /\ ~ In i W.
    (** [W]: the links of the walk, the last one first *)
    Fixpoint linked (W : list nat) : Prop :=
      match W with
      | [] => True
      | j :: r => match r with [] => j = e0 | i :: _ => hd i = tl j /\ first i j end /\ linked r
      end.
    Record inv (W : list nat) (i : nat) (vis : list bool) : Prop := {
      iv_vis : forall x, not_visited vis x = true <-> not_visited vis0 x = true /\ ~ In x W;
      iv_cur : In i W;
      iv_ok : forall x, In x W -> valid x /\ not_visited vis0 x = true;
      iv_sw : forall x, In x W -> sw kU x = Lw;
      iv_off : forall x k, In x W -> balanced (ch k) -> off k W -> top k x = 0;
      iv_prev : forall x, In x W -> x = e0 \/ exists i', In i' W /\ i' <> i /\ hd i' = tl x /\ first i' x;
      iv_lnk : linked W;
      iv_hd : exists r, W = i :: r }.
    Lemma linked_ind (Q : nat -> Prop) : forall W, linked W -> Q e0 ->
      (forall i j, In i W -> In j W -> hd i = tl j -> first i j -> Q i -> Q j) -> forall x, In x W -> Q x.
    Proof.
      induction W as [|j [|i r] IH]; intros L Q0 St x Ix; [destruct Ix| |].
      - destruct Ix as [<-|[]]. destruct L as [-> _]. auto.
      - destruct L as [[H F] L]. assert (All : forall x, In x (i :: r) -> Q x) by (apply IH; auto; intros i' j' Wi Wj; apply St; simpl in *; tauto).
        destruct Ix as [<-|Ix]; auto. apply (St i j); auto; try (simpl; tauto). apply All. simpl; tauto.
    Qed.

    Hypothesis Hlast : tl e0 = last.

    (** the link picked is the next one in rotation among all links unvisited at the beginning *)
    Lemma pick_adjacent W i vis j : inv W i vis -> hd i <> last -> valid j -> not_visited vis j = true -> at_node (hd i) j ->
      (forall u, valid u -> not_visited vis u = true -> at_node (hd i) u -> u <> j -> before (rf cw) (nd (hd i) i) (nd (hd i) j) (nd (hd i) u)) ->
      first i j.
    Proof.
      intros I Nl Vj Uj Aj F. destruct (iv_ok _ _ _ I i (iv_cur _ _ _ I)) as [Vi Ui].
      destruct (proj1 (iv_vis _ _ _ I j) Uj) as [U0j NWj].
      assert (Nij : j <> i) by (intros ->; apply NWj; apply (iv_cur _ _ _ I)).
      set (l := filter (fun u => not_visited vis0 u && negb (u =? i)%nat && ((na u =? hd i)%nat || (nb u =? hd i)%nat)) (seq 0 (length links))).
      assert (L : forall u, In u l <-> valid u /\ not_visited vis0 u = true /\ u <> i /\ at_node (hd i) u).
      { intro u. unfold l, at_node, valid. rewrite filter_In, in_seq, !andb_true_iff, orb_true_iff, negb_true_iff, Nat.eqb_neq, !Nat.eqb_eq. split; intros H; intuition lia. }
      destruct (pick_first (rf cw) (nd (hd i) i) (nd (hd i)) l (rf_cases cw)) as (x & Ix & M).
      { apply nd_nz; auto using at_hd. }
      { intro E. assert (In j l) by (apply L; auto). rewrite E in H. destruct H. }
      { intros y Iy. apply L in Iy as (Vy & _ & Ny & Ay). split; [apply nd_nz; auto|apply nd_sep; auto using at_hd]. }
      { intros y z Iy Iz N. apply L in Iy as (Vy & _ & Ny & Ay). apply L in Iz as (Vz & _ & Nz & Az). apply nd_sep; auto. }
      apply L in Ix as Ix'. destruct Ix' as (Vx & Ux & Nxi & Ax).
      destruct (Nat.eq_dec x j) as [->|Nxj].
      { intros u Vu Uu Nui Nuj Au. apply M; auto. apply L. auto. }
      exfalso.
      assert (Bx : before (rf cw) (nd (hd i) i) (nd (hd i) x) (nd (hd i) j)) by (apply M; auto; apply L; auto).
      assert (Wx : In x W).
      { destruct (in_dec Nat.eq_dec x W) as [|NW]; auto. exfalso.
        assert (Uvx : not_visited vis x = true) by (apply (iv_vis _ _ _ I); auto).
        pose proof (F x Vx Uvx Ax Nxj) as Bj. exact (before_asym _ _ _ _ Bj Bx). }
      assert (Sx : side_at ges kU (pn (hd i)) (rf cw) (seg x) = Lw).
      { rewrite <- (iv_sw _ _ _ I i (iv_cur _ _ _ I)), <- (side_hd kU i Vi). symmetry. apply sector_cw; auto using at_hd.
        intros u Vu Ku Nui Nux Au. apply M; auto. apply L. rewrite (KU u Vu) in Ku. destruct (not_visited vis0 u) eqn:Uu; [|congruence]. auto. }
      assert (Hx : hd i = hd x \/ hd i = tl x).
      { unfold hd at 2, tl. destruct Ax as [A|A]; destruct (tau x); auto. }
      destruct Hx as [Hx|Hx].
      - rewrite Hx, side_hd' in Sx by auto. rewrite (ow_sw x Vx Ux), (iv_sw _ _ _ I x Wx) in Sx. lia.
      - destruct (iv_prev _ _ _ I x Wx) as [->|(i' & Wi' & Ni' & Hi' & Fi')]; [congruence|].
        destruct (iv_ok _ _ _ I i' Wi') as [Vi' Ui'].
        assert (Nx' : i' <> x) by (intros ->; apply (hd_tl x Vx); auto).
        assert (Ai' : at_node (hd i) i') by (rewrite Hx, <- Hi'; apply at_hd).
        assert (B1 : before (rf cw) (nd (hd i) i) (nd (hd i) x) (nd (hd i) i')) by (apply M; auto; apply L; auto).
        assert (E : hd i' = hd i) by congruence.
        assert (Ai : at_node (hd i') i) by (rewrite E; apply at_hd).
        pose proof (Fi' i Vi Ui (fun H => Ni' (eq_sym H)) (fun H => Nxi (eq_sym H)) Ai) as B2. rewrite E in B2.
        eapply (before_cyc (rf cw) (nd (hd i) i) (nd (hd i) x) (nd (hd i) i')); eauto using rf_cases, nd_nz, at_hd; apply nd_sep; auto using at_hd.
    Qed.

    Lemma inv_step W i vis j : inv W i vis -> hd i <> last -> valid j -> not_visited vis j = true -> at_node (hd i) j ->
      (forall u, valid u -> not_visited vis u = true -> at_node (hd i) u -> u <> j -> before (rf cw) (nd (hd i) i) (nd (hd i) j) (nd (hd i) u)) ->
      inv (j :: W) j (visit j vis) /\ tl j = hd i.
    Proof.
      intros I Nl Vj Uj Aj F. pose proof (pick_adjacent W i vis j I Nl Vj Uj Aj F) as Fj.
      destruct (iv_ok _ _ _ I i (iv_cur _ _ _ I)) as [Vi Ui].
      destruct (proj1 (iv_vis _ _ _ I j) Uj) as [U0j NWj].
      assert (Nij : i <> j) by (intros ->; apply NWj; apply (iv_cur _ _ _ I)).
      assert (Sec : forall k, balanced (ch k) -> (forall u, valid u -> k (seg u) <> 0 -> not_visited vis0 u = true) ->
                side_at ges k (pn (hd i)) (rf cw) (seg j) = sw k i).
      { intros k B K. rewrite <- (side_hd k i Vi). symmetry. apply sector_cw; auto using at_hd. }
      assert (KU' : forall u, valid u -> kU (seg u) <> 0 -> not_visited vis0 u = true).
      { intros u Vu Ku. rewrite (KU u Vu) in Ku. destruct (not_visited vis0 u); congruence. }
      assert (T : tl j = hd i).
      { apply tau_ok; auto. rewrite (Sec kU BU KU'). apply (iv_sw _ _ _ I). apply (iv_cur _ _ _ I). }
      split; auto. constructor.
      - intro x. unfold not_visited. rewrite visit_spec by (apply unvisited_lt; auto).
        pose proof (iv_vis _ _ _ I x) as V. unfold not_visited in V. rewrite !negb_true_iff in *. rewrite orb_false_iff, Nat.eqb_neq, V. simpl. tauto.
      - left; auto.
      - intros x [<-|Ix]; auto. apply (iv_ok _ _ _ I); auto.
      - intros x [<-|Ix]; [|apply (iv_sw _ _ _ I); auto]. rewrite <- side_tl by auto. rewrite T, (Sec kU BU KU'). apply (iv_sw _ _ _ I). apply (iv_cur _ _ _ I).
      - intros x k Ix B O.
        assert (O' : off k W) by (intros u Vu Ku; destruct (O u Vu Ku) as [O1 O2]; split; auto; intro H; apply O2; right; auto).
        destruct Ix as [<-|Ix]; [|apply (iv_off _ _ _ I); auto].
        assert (Ki : k (seg i) = 0) by (destruct (Z.eq_dec (k (seg i)) 0); auto; destruct (O' i Vi n) as [_ X]; destruct X; apply (iv_cur _ _ _ I)).
        assert (Kj : k (seg j) = 0) by (destruct (Z.eq_dec (k (seg j)) 0); auto; destruct (O j Vj n) as [_ X]; destruct X; left; auto).
        pose proof (iv_off _ _ _ I i k (iv_cur _ _ _ I) B O') as Ti.
        assert (S : sw k j = sw k i) by (rewrite <- side_tl by auto; rewrite T; apply Sec; auto; intros u Vu Ku; apply O; auto).
        pose proof (top_bot k i) as E1. pose proof (top_bot k j) as E2. rewrite Ki in E1. rewrite Kj in E2.
        unfold sw in S. destruct (Bool.eqb (tau j) cw), (Bool.eqb (tau i) cw); lia.
      - intros x [<-|Ix].
        + right. exists i. split; [right; apply (iv_cur _ _ _ I)|]. auto.
        + destruct (iv_prev _ _ _ I x Ix) as [E|(i' & W' & N' & H' & F')]; auto. right. exists i'. split; [right; auto|]. split; auto.
          intros ->. apply NWj; auto.
      - destruct (iv_hd _ _ _ I) as (r & ->). split; [auto|apply (iv_lnk _ _ _ I)].
      - eauto.
    Qed.

    (** oriented walks *)
    Inductive otrail : nat -> list pt -> list nat -> nat -> Prop :=
    | ot_nil k : otrail k [] [] k
    | ot_cons i c u z : otrail (hd i) c u z -> otrail (tl i) (pn (tl i) :: c) (i :: u) z.

    Lemma walk_inv : forall fuel i vis W c u vis',
      inv W i vis -> odd_at g vis (hd i) last -> walk g fuel cw i (hd i) last vis = Some (c, u, vis') ->
      otrail (hd i) c u last /\ exists j W', inv W' j vis' /\ (forall x, In x W' <-> In x u \/ In x W).
    Proof.
      induction fuel as [|fuel IH]; intros i vis W c u vis' I O Wk; simpl in Wk.
      - destruct (Nat.eqb_spec (hd i) last) as [E|E]; [|discriminate]. injection Wk as <- <- <-. rewrite E. split; [constructor|].
        exists i, W. split; auto. intro; simpl; tauto.
      - destruct (Nat.eqb_spec (hd i) last) as [E|NE].
        { injection Wk as <- <- <-. rewrite E. split; [constructor|]. exists i, W. split; auto. intro; simpl; tauto. }
        destruct (iv_ok _ _ _ I i (iv_cur _ _ _ I)) as [Vi Ui].
        pose proof (lk_nth i Vi) as H0. pose proof (at_hd i) as E0.
        assert (V0 : not_visited vis i = false).
        { destruct (not_visited vis i) eqn:X; auto. apply (iv_vis _ _ _ I) in X as [_ X]. destruct X. apply (iv_cur _ _ _ I). }
        destruct (nth_error nodes (hd i)) as [n|] eqn:Hn; [|discriminate].
        destruct (next_link_spec g pts G i (hd i) cw n vis last (lk i) Hn O NE H0 E0 V0) as (j & l & Nx & U & Hl & E).
        rewrite Nx, Hl in Wk. apply lk_eq in Hl as Hl'. destruct Hl' as [Ej Vj].
        assert (Aj : at_node (hd i) j) by (unfold at_node, na, nb; rewrite Ej; auto).
        destruct (gw_node _ _ G _ n Hn) as [_ M].
        assert (Fst : forall u, valid u -> not_visited vis u = true -> at_node (hd i) u -> u <> j -> before (rf cw) (nd (hd i) i) (nd (hd i) j) (nd (hd i) u)).
        { intros w Vw Uw Aw Nw.
          assert (Iw : In w (node_links n)) by (apply M; exists (lk w); split; [apply lk_nth; auto|exact Aw]).
          pose proof (next_link_first g pts G P i (hd i) cw n vis (pn (hd i)) (lk i) j Hn (pn_node i _ Vi E0) H0 E0 V0 (ex_intro _ w (conj Iw Uw)) Nx w Iw Uw Nw) as B.
          rewrite !dirn_dir in B by auto. exact B. }
        destruct (inv_step W i vis j I NE Vj U Aj Fst) as [I' T].
        assert (Pn : (if (l_aid l =? hd i)%nat then (l_a l, l_bid l) else (l_b l, l_aid l)) = (pn (tl j), hd j)).
        { rewrite <- T. destruct (node_pts j Vj) as (Pa & Pb & N). pose proof (pn_a j Vj) as Pa'. pose proof (pn_b j Vj) as Pb'.
          unfold hd, tl, na, nb, seg in *. rewrite Ej in *. destruct (tau j).
          - rewrite Nat.eqb_refl, Pa'. auto.
          - rewrite (proj2 (Nat.eqb_neq _ _) N), Pb'. auto. }
        rewrite Pn in Wk. destruct (walk g fuel cw j (hd j) last (visit j vis)) as [[[c' u'] v']|] eqn:Wk'; [|discriminate].
        injection Wk as <- <- <-.
        destruct (IH j (visit j vis) (j :: W) c' u' v' I') as (T1 & j2 & W' & I2 & Mem); auto.
        + apply (visit_step g pts G vis j (lk j) (hd i) (hd j) last); auto using lk_nth.
          rewrite <- T. unfold hd, tl. fold (na j) (nb j). destruct (tau j); auto.
        + split; [rewrite <- T; constructor; auto|]. exists j2, W'. split; auto. intro x. rewrite Mem. simpl. tauto.
    Qed.
  End Walk.
End Amb.
