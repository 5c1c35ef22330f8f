(** * Nesting of the extracted contours. *)
From Verif Require Import Base Spec QLib SegmProofs PlanarGeo PlanarSum FillProofs FillCorrect ModelGraph GraphProofs ModelExtract ExtractProofs Rotation NextLink MoveLemma SectorLemma Sides WalkSides Orient ModelBind BindProofs BindSweep Thin.
Open Scope Z_scope.

(** ** lists *)
Lemma edges_nth c i : nth_error (edges c) i = match nth_error c i with
  | Some p => match nth_error c (S i) with Some q => Some (p, q) | None => match c with [] => None | f :: _ => Some (p, f) end end
  | None => None end.
Proof.
  destruct c as [|f r]; [destruct i; auto|]. unfold edges.
  assert (H : forall (r0 : list pt) (p0 : pt) i, nth_error (combine (p0 :: r0) (r0 ++ [f])) i = match nth_error (p0 :: r0) i with
    | Some p => match nth_error (p0 :: r0) (S i) with Some q => Some (p, q) | None => Some (p, f) end | None => None end).
  { induction r0 as [|a r0 IH]; intros p0 j.
    - destruct j as [|j]; simpl; auto. destruct j; auto.
    - destruct j as [|j]; [reflexivity|]. specialize (IH a j). cbn [app combine nth_error] in *. exact IH. }
  apply H.
Qed.
Lemma edges_len c : length (edges c) = length c.
Proof. destruct c as [|p c]; auto. unfold edges. rewrite combine_length, app_length. cbn [length]. lia. Qed.
Lemma edge_fst c i e : nth_error (edges c) i = Some e -> nth_error c i = Some (fst e).
Proof.
  rewrite edges_nth. destruct (nth_error c i) as [p|]; [|discriminate]. destruct (nth_error c (S i)); [intro H; injection H as <-; auto|].
  destruct c; [discriminate|]. intro H; injection H as <-; auto.
Qed.
Lemma edge_snd c i e : nth_error (edges c) i = Some e -> nth_error c (S i) = Some (snd e) \/ (S i = length c /\ nth_error c 0 = Some (snd e)).
Proof.
  intro E0. assert (L : (i < length c)%nat) by (rewrite <- edges_len; apply nth_error_Some; congruence). revert E0.
  rewrite edges_nth. destruct (nth_error c i) as [p|]; [|discriminate]. destruct (nth_error c (S i)) eqn:E; [intro H; injection H as <-; auto|].
  apply nth_error_None in E. destruct c; [discriminate|]. intro H; injection H as <-. right. split; [lia|auto].
Qed.
Lemma min_point_keep : forall l i ix a, (forall p, In p l -> ~ pt_lt p a) -> min_point i l ix a = (ix, a).
Proof.
  induction l as [|p l IH]; intros i ix a H; auto. cbn [min_point]. rewrite (proj2 (pt_ltb_ge p a)) by (apply H; left; auto). apply IH. intros; apply H; right; auto.
Qed.

Lemma lex_dot u w : lexpos u -> lexpos w -> vx u w = 0 -> 0 < dot u w.
Proof.
  destruct u as [a b], w as [c d]. unfold lexpos, vx, dot. cbn [fst snd]. intros [U|[U1 U2]] [W|[W1 W2]] H.
  - assert (0 < a * c) by nia. assert (0 <= b * d); [|lia]. destruct (Z_lt_le_dec b 0); nia.
  - subst c. nia.
  - subst a. nia.
  - subst. nia.
Qed.
Lemma lex_nv t u : lexpos t -> lexpos u -> vx t u < 0 -> 0 < fst u.
Proof. destruct t as [a b], u as [c d]. unfold lexpos, vx. cbn [fst snd]. intros [U|[U1 U2]] [W|[W1 W2]] H; auto; subst; nia. Qed.

Section Nest.
  Variable g : graph.
  Variable pts : list pt.
  Hypothesis G : graph_wf g pts.
  Hypothesis P : links_planar (g_links g).
  Hypothesis NDp : NoDup pts.
  Hypothesis Srt : forall i j, (i <= j)%nat -> valid g j -> ~ pt_lt (sa (seg g j)) (sa (seg g i)).
  Notation links := (g_links g).
  Notation valid := (valid g).
  Notation seg := (seg g).
  Notation ges := (ges g).
  Notation lk := (lk g).
  Notation A := (g_ambient g P).
  Notation top k i := (top ges k (seg i)).
  Notation bot k i := (bot ges k (seg i)).
  Notation ch := (ch ges).
  Notation kx := (kx g).
  Variable kR : nat -> Z.
  Variable visI : list bool.
  Hypothesis KR : forall i, valid i -> if not_visited visI i then kR i = 1 \/ kR i = -1 else kR i = 0.
  Hypothesis BR : balanced (ch (kx kR)).
  Hypothesis WR : forall q, wind (ch (kx kR)) q = 0 \/ wind (ch (kx kR)) q = 1.
  Variable clean : bool -> list pt -> list pt * bool.
  Variables (r : OverlayRule) (clockwise simplify : bool) (min_area : Z).
  Hypothesis KT : forall i, valid i -> not_visited visI i = true -> kR i = if is_fill_top r (l_fill (lk i)) then 1 else -1.

  (** the chain of a contour, directed with the region on its left *)
  Definition C (p : piece) : chain := ch (kx (fC kR (p_used p))).
  Definition sgn (p : piece) : Z := if p_hole p then -1 else 1.
  Definition pdir (p : piece) : bool := Bool.eqb (p_hole p) clockwise.

  Record stepf (vis : list bool) (p : piece) (vis' : list bool) (t : nat) : Prop := {
    sf_gi : ginv g kR visI vis;
    sf_t : valid t;
    sf_ut : not_visited vis t = true;
    sf_min : forall x, valid x -> not_visited vis x = true -> ~ pt_lt (sa (seg x)) (sa (seg t));
    sf_top : forall x, valid x -> not_visited vis x = true -> sa (seg x) = sa (seg t) -> vx (vsub (sb (seg t)) (sa (seg t))) (vsub (sb (seg x)) (sa (seg t))) <= 0;
    sf_used : exists u, p_used p = t :: u;
    sf_nd : NoDup (p_used p);
    sf_ok : forall x, In x (p_used p) -> valid x /\ not_visited vis x = true;
    sf_vis : forall x, not_visited vis' x = true <-> not_visited vis x = true /\ ~ In x (p_used p);
    sf_hole : kR t = - sgn p;
    sf_bal : balanced (C p);
    sf_cw : forall q, contour_wind (p_raw p) q = main_dir clockwise * wind (C p) q;
    sf_wc : forall q, wind (C p) q = 0 \/ wind (C p) q = sgn p;
    sf_ex : exists q, wind (C p) q = sgn p;
    sf_wv : forall q, wind (C p) q <> 0 -> wind (ch (kx kR)) q - wind (ch (kx (fU kR vis))) q = if p_hole p then 1 else 0;
    sf_wu : forall q, wind (ch (kx (fU kR vis'))) q = wind (ch (kx (fU kR vis))) q - wind (C p) q;
    sf_nest : forall k, balanced (ch k) -> (forall u, valid u -> k (seg u) <> 0 -> kR u <> 0 /\ not_visited vis u = false) ->
      forall q, wind (C p) q <> 0 -> wind (ch k) q = top k t;
    sf_valid : p_valid p = true;
    sf_raw : get_contour g (length vis) (start_path (pdir p) (lk t) t) (pdir p) vis = Some (p_raw p, p_used p, vis');
    sf_dir : edges (p_raw p) = map (fun x => if kR x =? main_dir clockwise then (sa (seg x), sb (seg x)) else (sb (seg x), sa (seg x))) (p_used p);
    sf_first : exists c, p_raw p = if pdir p then sb (seg t) :: c else sa (seg t) :: c;
    sf_once : pdir p = false -> forall x, In x (List.tl (p_raw p)) -> x <> sa (seg t);
    sf_walk : Forall2 (edge_is g) (edges (p_raw p)) (p_used p);
    sf_clean : clean simplify (p_raw p) = (p_contour p, p_mod p) }.

  Inductive steps : list bool -> list piece -> Prop :=
  | st_nil vis : (forall x, valid x -> not_visited vis x = false) -> steps vis []
  | st_cons vis p t vis' ps : stepf vis p vis' t -> steps vis' ps -> steps vis (p :: ps).

  Lemma walk_avoid cw last a : nth_error pts last = Some a -> forall fuel i node vis c u v,
    walk g fuel cw i node last vis = Some (c, u, v) -> trail g pts node c u last -> forall x, In x c -> x <> a.
  Proof.
    intros La. induction fuel as [|fuel IH]; intros i node vis c u v W T x Ix; cbn [walk] in W.
    - destruct (node =? last)%nat; [|discriminate]. injection W as <- <- <-. destruct Ix.
    - destruct (Nat.eqb_spec node last) as [E|NE]; [injection W as <- <- <-; destruct Ix|].
      destruct (nth_error (g_nodes g) node) as [n|] eqn:En; [|discriminate].
      destruct (next_link g i node cw n vis) as [j|]; [|discriminate]. destruct (nth_error links j) as [l|] eqn:El; [|discriminate].
      set (pn := if (l_aid l =? node)%nat then (l_a l, l_bid l) else (l_b l, l_aid l)) in *.
      destruct pn as [p nx] eqn:Ep. destruct (walk g fuel cw j nx last (visit j vis)) as [[[c' u'] v']|] eqn:Wk; [|discriminate]. injection W as <- <- <-.
      inversion T as [|k q i0 l0 next c0 u0 z Hk Hl Hn T']; subst.
      destruct Ix as [<-|Ix].
      + intro X. apply NE. eapply (pn_inj pts NDp); eauto.
      + eapply IH; eauto. assert (next = nx); [|subst; auto].
        destruct (gw_link _ _ G j l El) as (Nab & _). rewrite El in Hl. injection Hl as <-. unfold pn in Ep.
        destruct Hn as [[H1 H2]|[H1 H2]]; destruct (Nat.eqb_spec (l_aid l) node); congruence.
  Qed.

  Lemma extract_steps : forall fuel k vis ps, ginv g kR visI vis -> all_even g vis -> length vis = length links -> vis_min vis k ->
    extract_loop g clean fuel r clockwise simplify min_area k vis = Some ps ->
    (forall p, In p ps -> (exists q, contour_wind (p_raw p) q <> 0) -> p_valid p = true) -> steps vis ps.
  Proof.
    induction fuel as [|fuel IH]; intros k vis ps GI Ev Len Mn H Va; cbn [extract_loop] in H.
    - destruct (Nat.leb_spec (length vis) k) as [L|L]; [|discriminate]. injection H as <-. constructor.
      intros x V. destruct (not_visited vis x) eqn:U; auto. pose proof (Mn x U). unfold WalkSides.valid in V. lia.
    - destruct (Nat.leb_spec (length vis) k) as [L|L].
      { injection H as <-. constructor. intros x V. destruct (not_visited vis x) eqn:U; auto. pose proof (Mn x U). unfold WalkSides.valid in V. lia. }
      destruct (is_visited vis k) eqn:Vk.
      { apply (IH (S k) vis ps); auto. intros i U. pose proof (Mn i U). destruct (Nat.eq_dec i k) as [->|]; [unfold not_visited in U; rewrite Vk in U; discriminate|lia]. }
      assert (Uk : not_visited vis k = true) by (unfold not_visited; rewrite Vk; auto).
      assert (Vk' : valid k) by (unfold WalkSides.valid; lia).
      destruct (left_top_upper g pts G P NDp Srt vis k Ev Mn Vk' Uk) as (t & Ft & Vt & Ut & St & Tt). rewrite Ft, (lk_nth g t Vt) in H.
      set (hole := is_fill_top r (l_fill (lk t))) in *. set (dir := Bool.eqb hole clockwise) in *.
      destruct (contour_spec g pts G (length vis) dir dir (lk t) t vis Ev Ut (lk_nth g t Vt) Len) as (raw & u & vis' & Gc & Fe & Nd & Uu & Fl & Ev' & _ & c' & Er & Tr).
      { pose proof (ucount_le vis). lia. }
      rewrite Gc in H. destruct (clean simplify raw) as [cc m] eqn:Ecl.
      destruct (extract_loop g clean fuel r clockwise simplify min_area (if is_valid min_area cc then k else S k) vis') as [ps'|] eqn:Hl; [|discriminate].
      injection H as <-.
      assert (Mt : forall x, valid x -> not_visited vis x = true -> ~ pt_lt (sa (seg x)) (sa (seg t))) by (intros x Vx Ux; rewrite St; apply Srt; auto).
      rewrite <- St in Tt.
      destruct (step_contour g pts G P NDp kR visI KR BR WR vis GI Ev Len t Vt Ut Mt Tt dir (length vis) raw (t :: u) vis' Gc Nd Fl) as (GI' & BC & Cw & WC & Ex & WV & WU & Ne & Ed).
      assert (Kt : kR t = if hole then 1 else -1) by (apply KT; auto; apply (gi_sub _ _ _ _ GI); auto).
      assert (Dr : rf dir * - kR t = main_dir clockwise) by (rewrite Kt; unfold dir, main_dir; destruct hole, clockwise; reflexivity).
      assert (Vp : is_valid min_area cc = true).
      { apply (Va _ (or_introl eq_refl)). cbn [p_raw]. destruct Ex as (q & Eq). exists q. rewrite Cw, Eq, Dr, Kt. unfold main_dir. destruct hole, clockwise; discriminate. }
      rewrite Vp in Hl.
      assert (Fv : forall x, not_visited vis' x = true <-> not_visited vis x = true /\ ~ In x (t :: u)) by (intro x; apply (flags_trans vis vis' (t :: u) Fl)).
      apply st_cons with (t := t) (vis' := vis').
      + constructor; cbn [p_hole p_valid p_raw p_contour p_mod p_used]; auto.
        * eauto.
        * intros x Ix. split; [|auto]. unfold WalkSides.valid. rewrite <- Len. apply unvisited_lt; auto.
        * unfold sgn. cbn [p_hole]. fold hole. rewrite Kt. destruct hole; auto.
        * intro q. rewrite Cw, Dr. auto.
        * intro q. unfold sgn. cbn [p_hole]. fold hole. rewrite Kt in WC. destruct (WC q) as [E|E]; [left; exact E|right]. unfold C. cbn [p_used]. rewrite E. destruct hole; auto.
        * unfold sgn. cbn [p_hole]. fold hole. rewrite Kt in Ex. destruct Ex as (q & E). exists q. unfold C. cbn [p_used]. rewrite E. destruct hole; auto.
        * intros q Nz. rewrite (WV q Nz), Kt. fold hole. destruct hole; auto.
        * rewrite <- Dr. exact Ed.
        * unfold pdir. cbn [p_hole]. fold hole dir. rewrite Er. exists c'. unfold start_path. destruct dir; reflexivity.
        * unfold pdir. cbn [p_hole]. fold hole dir. intros Df x Ix. rewrite Er in Ix. cbn [List.tl] in Ix.
          unfold get_contour in Gc. destruct (walk g (length vis) dir _ _ _ _) as [[[c0 u0] v0]|] eqn:Wk; [|discriminate].
          assert (c0 = c' /\ u0 = u) as [-> ->] by (split; congruence).
          eapply walk_avoid; [|exact Wk|exact Tr|exact Ix]. rewrite Df. unfold start_path. cbn [sd_last].
          apply (node_pts g pts G t Vt).
      + apply (IH k vis' ps'); auto.
        * destruct Fl as [Fl _]. congruence.
        * intros i U. apply Mn. apply Fv in U. tauto.
        * intros p I. apply Va. right; auto.
  Qed.
  (** ** the whole run, by position *)
  Definition at_ (ps : list piece) (i : nat) (p : piece) : Prop := nth_error ps i = Some p.
  Definition before_sum (ps : list piece) (i : nat) (q : qpt) : Z := zsum (fun p => wind (C p) q) (firstn i ps).
  Lemma before_S ps i p q : at_ ps i p -> before_sum ps (S i) q = before_sum ps i q + wind (C p) q.
  Proof.
    unfold at_, before_sum. revert i. induction ps as [|a ps IH]; intros [|i] H; try discriminate; cbn [firstn nth_error] in *.
    - injection H as <-. rewrite !zsum_cons, !zsum_nil. lia.
    - specialize (IH i H). cbn [firstn] in IH. rewrite !zsum_cons. lia.
  Qed.
  Lemma steps_at vis ps : steps vis ps -> forall i p, at_ ps i p -> exists vi vi' t, stepf vi p vi' t /\
    (forall x, not_visited vi x = true <-> not_visited vis x = true /\ forall j p', (j < i)%nat -> at_ ps j p' -> ~ In x (p_used p')) /\
    (forall q, wind (ch (kx (fU kR vi))) q = wind (ch (kx (fU kR vis))) q - before_sum ps i q).
  Proof.
    induction 1 as [vis H|vis p t vis' ps Sf St IH]; intros i x Hx; [destruct i; discriminate|].
    destruct i as [|i].
    - injection Hx as <-. exists vis, vis', t. split; auto. split.
      + intro x. split; [intro U; split; auto; intros; lia|tauto].
      + intro q. unfold before_sum. cbn [firstn]. rewrite zsum_nil. lia.
    - destruct (IH i x Hx) as (vi & vi' & t' & Sf' & V & W). exists vi, vi', t'. split; auto. split.
      + intro y. rewrite V, (sf_vis _ _ _ _ Sf). split.
        * intros [[U N] K]. split; auto. intros [|j] p' L Hj; [injection Hj as <-; auto|]. apply (K j p'); auto. lia.
        * intros [U K]. split; [split; auto; apply (K O p); [lia|reflexivity]|]. intros j p' L Hj. apply (K (S j) p'); auto. lia.
      + intro q. rewrite W, (sf_wu _ _ _ _ Sf). unfold before_sum. cbn [firstn]. rewrite zsum_cons. lia.
  Qed.
  Lemma steps_all vis ps : steps vis ps -> forall x, valid x -> not_visited vis x = true -> exists i p, at_ ps i p /\ In x (p_used p).
  Proof.
    induction 1 as [vis H|vis p t vis' ps Sf St IH]; intros x V U; [rewrite H in U by auto; discriminate|].
    destruct (in_dec Nat.eq_dec x (p_used p)) as [I|N]; [exists O, p; split; auto; reflexivity|].
    destruct (IH x V) as (i & p' & Hp & I); [apply (sf_vis _ _ _ _ Sf); auto|]. exists (S i), p'. auto.
  Qed.
  Lemma steps_end vis ps : steps vis ps -> forall q, wind (ch (kx (fU kR vis))) q = zsum (fun p => wind (C p) q) ps.
  Proof.
    induction 1 as [vis H|vis p t vis' ps Sf St IH]; intro q.
    - unfold wind, SectorLemma.ch. rewrite zsum_map. rewrite zsum_nil. apply zsum_zero. intros e I. cbn [fst snd]. apply in_seg in I as (i & V & ->). rewrite kx_seg by auto.
      unfold fU. rewrite H by auto. destruct (under _ _); auto.
    - rewrite zsum_cons, <- IH, (sf_wu _ _ _ _ Sf). lia.
  Qed.

  Variable ps : list piece.
  Hypothesis St : steps visI ps.
  Notation P_ := (at_ ps).

  Lemma fU_start q : wind (ch (kx (fU kR visI))) q = wind (ch (kx kR)) q.
  Proof.
    unfold wind, SectorLemma.ch. rewrite !zsum_map. apply zsum_ext. intros e I. cbn [fst snd]. apply in_seg in I as (i & V & ->). rewrite !kx_seg by auto.
    unfold fU. specialize (KR i V). destruct (not_visited visI i); auto. rewrite KR. auto.
  Qed.
  Lemma total q : wind (ch (kx kR)) q = zsum (fun p => wind (C p) q) ps.
  Proof. rewrite <- fU_start. apply steps_end; auto. Qed.

  Lemma used_ok i p x : P_ i p -> In x (p_used p) -> valid x /\ not_visited visI x = true /\ (kR x = 1 \/ kR x = -1).
  Proof.
    intros Hp I. destruct (steps_at visI ps St i p Hp) as (vi & vi' & t & Sf & V & _). destruct (sf_ok _ _ _ _ Sf x I) as [Vx Ux].
    apply V in Ux as [Ux _]. split; auto. split; auto. specialize (KR x Vx). rewrite Ux in KR. auto.
  Qed.
  Lemma disjoint i j p p' x : P_ i p -> P_ j p' -> In x (p_used p) -> In x (p_used p') -> i = j.
  Proof.
    assert (H : forall i j p p', P_ i p -> P_ j p' -> In x (p_used p) -> In x (p_used p') -> (i < j)%nat -> False).
    { clear i j p p'. intros i j p p' Hi Hj I I' L. destruct (steps_at visI ps St j p' Hj) as (vi & vi' & t & Sf & V & _).
      destruct (sf_ok _ _ _ _ Sf x I') as [Vx Ux]. apply V in Ux as [_ K]. apply (K i p L Hi I). }
    intros Hi Hj I I'. destruct (lt_eq_lt_dec i j) as [[L|E]|L]; auto; exfalso; eauto.
  Qed.
  Lemma balC i p : P_ i p -> balanced (C p).
  Proof. intro Hp. destruct (steps_at visI ps St i p Hp) as (vi & vi' & t & Sf & _). apply (sf_bal _ _ _ _ Sf). Qed.
  Lemma windC i p : P_ i p -> forall q, wind (C p) q = 0 \/ wind (C p) q = sgn p.
  Proof. intro Hp. destruct (steps_at visI ps St i p Hp) as (vi & vi' & t & Sf & _). apply (sf_wc _ _ _ _ Sf). Qed.
  Lemma nest i j p x : (i < j)%nat -> P_ i p -> P_ j x -> forall q q', wind (C x) q <> 0 -> wind (C x) q' <> 0 -> wind (C p) q = wind (C p) q'.
  Proof.
    intros L Hi Hj. destruct (steps_at visI ps St j x Hj) as (vi & vi' & t & Sf & V & _).
    pose proof (sf_nest _ _ _ _ Sf (kx (fC kR (p_used p))) (balC i p Hi)) as N.
    assert (N' : forall q, wind (C x) q <> 0 -> wind (C p) q = top (kx (fC kR (p_used p))) t).
    { apply N. intros u Vu K. rewrite kx_seg in K by auto. unfold fC in K. destruct (memn u (p_used p)) eqn:M; [|congruence].
      apply memn_in in M. split; auto. destruct (not_visited vi u) eqn:U; auto. apply V in U as [_ U]. destruct (U i p L Hi M). }
    intros q q' Nq Nq'. rewrite (N' q Nq), (N' q' Nq'). auto.
  Qed.
  Lemma sum_before j x q : P_ j x -> wind (C x) q <> 0 -> before_sum ps j q = if p_hole x then 1 else 0.
  Proof.
    intros Hj Nq. destruct (steps_at visI ps St j x Hj) as (vi & vi' & t & Sf & _ & W).
    pose proof (sf_wv _ _ _ _ Sf q Nq) as E. rewrite W, fU_start in E. lia.
  Qed.
  Lemma last_enclosing q : forall j, (j <= length ps)%nat ->
    (before_sum ps j q = 0 /\ forall i p, (i < j)%nat -> P_ i p -> wind (C p) q = 0) \/
    exists o p, (o < j)%nat /\ P_ o p /\ wind (C p) q <> 0 /\ before_sum ps j q = (if p_hole p then 0 else 1) /\
      forall i p', (o < i < j)%nat -> P_ i p' -> wind (C p') q = 0.
  Proof.
    induction j as [|j IH]; intro L.
    - left. unfold before_sum. cbn [firstn]. rewrite zsum_nil. split; auto. intros; lia.
    - destruct (nth_error ps j) as [p|] eqn:Hp; [|apply nth_error_None in Hp; lia].
      destruct (Z.eq_dec (wind (C p) q) 0) as [Z0|Nz].
      + destruct IH as [(S0 & N)|(o & p0 & Lo & Ho & No & So & N)]; [lia| |].
        * left. rewrite (before_S ps j p q Hp). split; [lia|]. intros i p' Li Hi. destruct (Nat.eq_dec i j) as [->|]; [unfold at_ in Hi; congruence|]. apply (N i); auto; lia.
        * right. exists o, p0. split; [lia|]. split; auto. split; auto. split; [rewrite (before_S ps j p q Hp); lia|].
          intros i p' Li Hi. destruct (Nat.eq_dec i j) as [->|]; [unfold at_ in Hi; congruence|]. apply (N i); auto; lia.
      + right. exists j, p. split; [lia|]. split; [exact Hp|]. split; auto. split; [|intros; lia].
        rewrite (before_S ps j p q Hp), (sum_before j p q Hp Nz). destruct (windC j p Hp q) as [Z0|Z0]; [congruence|]. rewrite Z0. unfold sgn. destruct (p_hole p); lia.
  Qed.

  (** the outer contour a hole lies in: the last contour before it around it *)
  Definition parent (h o : nat) : Prop := exists ph po, P_ h ph /\ P_ o po /\ p_hole ph = true /\ p_hole po = false /\ (o < h)%nat /\
    (forall q, wind (C ph) q <> 0 -> wind (C po) q = 1) /\
    (forall i p q, (o < i < h)%nat -> P_ i p -> wind (C ph) q <> 0 -> wind (C p) q = 0).
  Lemma at_lt i p : P_ i p -> (i < length ps)%nat.
  Proof. intro H. apply nth_error_Some. unfold at_ in H. congruence. Qed.
  Lemma enclosed_pt i p : P_ i p -> exists q, wind (C p) q <> 0.
  Proof. intro Hp. destruct (steps_at visI ps St i p Hp) as (vi & vi' & t & Sf & _). destruct (sf_ex _ _ _ _ Sf) as (q & E). exists q. rewrite E. unfold sgn. destruct (p_hole p); discriminate. Qed.
  Lemma parent_ex h ph : P_ h ph -> p_hole ph = true -> exists o, parent h o.
  Proof.
    intros Hh Ho. destruct (enclosed_pt h ph Hh) as (q0 & Nq). pose proof (sum_before h ph q0 Hh Nq) as S0. rewrite Ho in S0.
    pose proof (at_lt h ph Hh) as L. destruct (last_enclosing q0 h ltac:(lia)) as [(Z0 & _)|(o & p & Lo & Hp & Np & Sp & N)]; [lia|].
    destruct (p_hole p) eqn:Hpp; [lia|]. exists o, ph, p. do 5 (split; auto).
    split.
    - intros q Nz. rewrite (nest o h p ph Lo Hp Hh q q0 Nz Nq). destruct (windC o p Hp q0) as [X|X]; [congruence|]. unfold sgn in X. rewrite Hpp in X. auto.
    - intros i p' q Li Hi Nz. rewrite (nest i h p' ph) with (q' := q0); auto; [|lia]. apply (N i); auto.
  Qed.
  Lemma parent_fun h o o' : parent h o -> parent h o' -> o = o'.
  Proof.
    intros (ph & po & Hh & Ho & _ & _ & L & E & N) (ph' & po' & Hh' & Ho' & _ & _ & L' & E' & N').
    assert (ph' = ph) by (unfold at_ in *; congruence). subst ph'. destruct (enclosed_pt h ph Hh) as (q & Nq).
    specialize (E q Nq). specialize (E' q Nq). destruct (lt_eq_lt_dec o o') as [[X|X]|X]; auto; exfalso.
    - rewrite (N o' po' q) in E'; auto; lia.
    - rewrite (N' o po q) in E; auto; lia.
  Qed.
  (** the last contour around a point *)
  Definition inner (q : qpt) (i : nat) : Prop := exists p, P_ i p /\ wind (C p) q <> 0 /\ forall j p', (i < j)%nat -> P_ j p' -> wind (C p') q = 0.
  Lemma inner_fun q i j : inner q i -> inner q j -> i = j.
  Proof.
    intros (p & Hp & Np & N) (p' & Hp' & Np' & N'). destruct (lt_eq_lt_dec i j) as [[X|X]|X]; auto; exfalso.
    - apply Np'. apply (N j); auto.
    - apply Np. apply (N' i); auto.
  Qed.
  Notation kC p := (kx (fC kR (p_used p))).
  Lemma side_common u : valid u -> exists qt qb, forall i p, P_ i p -> wind (C p) qt = top (kC p) u /\ wind (C p) qb = bot (kC p) u.
  Proof.
    intro V. destruct (mid_inside (seg u)) as (q & Hq); [apply (am_wf _ A); apply seg_in; auto|].
    assert (S : forall p, In p ps -> near (fun d => wind (C p) (top_side (seg u) q d) = top (kC p) u) /\ near (fun d => wind (C p) (bottom_side (seg u) q d) = bot (kC p) u)).
    { intros p I. apply In_nth_error in I as (i & Hi). apply (sides ges A); auto using seg_in. apply (balC i p Hi). }
    assert (One : (0 < 1)%Q) by reflexivity.
    destruct (near_pick _ 1%Q One (near_and_all (fun p d => wind (C p) (top_side (seg u) q d) = top (kC p) u) ps (fun p I => proj1 (S p I)))) as (d & _ & D).
    destruct (near_pick _ 1%Q One (near_and_all (fun p d => wind (C p) (bottom_side (seg u) q d) = bot (kC p) u) ps (fun p I => proj2 (S p I)))) as (d' & _ & D').
    exists (top_side (seg u) q d), (bottom_side (seg u) q d'). intros i p Hi. apply nth_error_In in Hi. split; [apply D|apply D']; auto.
  Qed.
  Lemma topbotC i p u : P_ i p -> valid u -> top (kC p) u = bot (kC p) u + if memn u (p_used p) then kR u else 0.
  Proof. intros Hp V. rewrite (top_bot g (kC p) u), kx_seg by auto. reflexivity. Qed.

  (** the outer contour whose shape lies at the region side of a link *)
  Definition shape_of (i o : nat) : Prop := exists p, P_ i p /\ if p_hole p then parent i o else o = i.
  Lemma side_inner u i p : P_ i p -> In u (p_used p) ->
    exists o qs, shape_of i o /\ inner qs o /\ forall j p', P_ j p' -> wind (C p') qs = if kR u =? 1 then top (kC p') u else bot (kC p') u.
  Proof.
    intros Hp Iu. destruct (used_ok i p u Hp Iu) as (V & _ & K). destruct (side_common u V) as (qt & qb & Q).
    assert (Mu : forall j p', P_ j p' -> j <> i -> memn u (p_used p') = false).
    { intros j p' Hj N. apply memn_false. intro I. apply N. eapply disjoint; eauto. }
    assert (Eq : forall j p', P_ j p' -> j <> i -> wind (C p') qt = wind (C p') qb).
    { intros j p' Hj N. destruct (Q j p' Hj) as [-> ->]. rewrite (topbotC j p' u Hj V), (Mu j p' Hj N). lia. }
    assert (Di : wind (C p) qt = wind (C p) qb + kR u).
    { destruct (Q i p Hp) as [-> ->]. rewrite (topbotC i p u Hp V), (proj2 (memn_in u (p_used p)) Iu). auto. }
    assert (Lat : forall j p', P_ j p' -> (i < j)%nat -> wind (C p') qt = 0).
    { intros j p' Hj L. destruct (Z.eq_dec (wind (C p') qt) 0) as [|Nz]; auto. exfalso.
      assert (Nz' : wind (C p') qb <> 0) by (rewrite <- (Eq j p' Hj); auto; lia).
      pose proof (nest i j p p' L Hp Hj qt qb Nz Nz') as E. lia. }
    set (qs := if kR u =? 1 then qt else qb). set (qo := if kR u =? 1 then qb else qt).
    assert (Eqs : forall j p', P_ j p' -> j <> i -> wind (C p') qs = wind (C p') qo /\ wind (C p') qs = wind (C p') qt).
    { intros j p' Hj N. pose proof (Eq j p' Hj N). unfold qs, qo. destruct (kR u =? 1); split; congruence. }
    assert (Ds : wind (C p) qs = wind (C p) qo + 1) by (unfold qs, qo; destruct (Z.eqb_spec (kR u) 1); lia).
    assert (Fin : forall j p', P_ j p' -> wind (C p') qs = if kR u =? 1 then top (kC p') u else bot (kC p') u).
    { intros j p' Hj. destruct (Q j p' Hj). unfold qs. destruct (kR u =? 1); auto. }
    pose proof (windC i p Hp qs) as W1. pose proof (windC i p Hp qo) as W2. unfold sgn in W1, W2. 
    destruct (p_hole p) eqn:Hh.
    - destruct (parent_ex i p Hp Hh) as (o & Po). exists o, qs. split; [exists p; rewrite Hh; auto|]. split; auto.
      destruct Po as (ph & po & Hh' & Ho & _ & _ & L & E & N). assert (ph = p) by (unfold at_ in *; congruence). subst ph.
      assert (No : wind (C p) qo <> 0) by lia. exists po. split; auto. split.
      + destruct (Eqs o po Ho) as [-> _]; [lia|]. rewrite (E qo No). lia.
      + intros j p' Lj Hj. destruct (lt_eq_lt_dec j i) as [[X|X]|X].
        * destruct (Eqs j p' Hj) as [-> _]; [lia|]. apply (N j); auto.
        * subst j. assert (p' = p) by (unfold at_ in *; congruence). subst p'. lia.
        * destruct (Eqs j p' Hj) as [_ ->]; [lia|]. apply (Lat j); auto.
    - exists i, qs. split; [exists p; rewrite Hh; auto|]. split; auto. exists p. split; auto. split; [lia|].
      intros j p' L Hj. destruct (Eqs j p' Hj) as [_ ->]; [lia|]. apply (Lat j); auto.
  Qed.
  Lemma shape_of_fun i o o' : shape_of i o -> shape_of i o' -> o = o'.
  Proof.
    intros (p & Hp & S) (p' & Hp' & S'). assert (p' = p) by (unfold at_ in *; congruence). subst p'. destruct (p_hole p); [eapply parent_fun; eauto|congruence].
  Qed.

  (** the edge found under the lower side of a link belongs to the same shape *)
  Lemma same_shape u e i j p p' : P_ i p -> P_ j p' -> In u (p_used p) -> In e (p_used p') -> kR u = -1 ->
    (forall k x, P_ k x -> bot (kC x) u = top (kC x) e) -> bot (kx kR) u = top (kx kR) e ->
    kR e = 1 /\ forall o, shape_of i o <-> shape_of j o.
  Proof.
    intros Hp Hp' Iu Ie Ku Bt BtR.
    destruct (used_ok i p u Hp Iu) as (Vu & _ & _). destruct (used_ok j p' e Hp' Ie) as (Ve & _ & Ke).
    assert (K1 : kR e = 1).
    { destruct (side_pts g P (kx kR) u Vu BR) as [[q1 Q1] [q2 Q2]]. pose proof (WR q1) as W1. pose proof (WR q2) as W2.
      destruct (side_pts g P (kx kR) e Ve BR) as [[q3 Q3] [q4 Q4]]. pose proof (WR q3) as W3. pose proof (WR q4) as W4.
      pose proof (top_bot g (kx kR) u) as E1. pose proof (top_bot g (kx kR) e) as E2. rewrite kx_seg in E1, E2 by auto. lia. }
    split; auto.
    destruct (side_inner u i p Hp Iu) as (o1 & q1 & S1 & I1 & W1). destruct (side_inner e j p' Hp' Ie) as (o2 & q2 & S2 & I2 & W2).
    rewrite Ku in W1. rewrite K1 in W2. cbn [Z.eqb] in W1, W2. 
    assert (Same : forall k x, P_ k x -> wind (C x) q1 = wind (C x) q2).
    { intros k x Hx. rewrite (W1 k x Hx), (W2 k x Hx). apply (Bt k x Hx). }
    assert (I2' : inner q1 o2).
    { destruct I2 as (x & Hx & Nx & N). exists x. split; auto. split; [rewrite (Same o2 x Hx); auto|]. intros k y L Hy. rewrite (Same k y Hy). apply (N k); auto. }
    assert (o1 = o2) by (eapply inner_fun; eauto). subst o2. intro o. split; intro X.
    - assert (o = o1) by (eapply shape_of_fun; eauto). subst; auto.
    - assert (o = o1) by (eapply shape_of_fun; eauto). subst; auto.
  Qed.

  (** ** the anchor of a hole *)
  Record hanchor (ph : piece) (t u : nat) : Prop := {
    ha_t : In t (p_used ph); ha_u : In u (p_used ph); ha_ne : t <> u;
    ha_sa : sa (seg u) = sa (seg t); ha_kt : kR t = 1; ha_ku : kR u = -1;
    ha_min : forall x, In x (p_used ph) -> ~ pt_lt (sa (seg x)) (sa (seg t));
    ha_two : forall x, In x (p_used ph) -> sa (seg x) = sa (seg t) -> x = t \/ x = u;
    ha_below : vx (vsub (sb (seg t)) (sa (seg t))) (vsub (sb (seg u)) (sa (seg t))) < 0;
    ha_nv : px (sa (seg u)) < px (sb (seg u)) }.
  (** the second point of a contour occurs once *)
  Definition second_once (c : list pt) : Prop := forall a i, nth_error c 1 = Some a -> nth_error c i = Some a -> i = 1%nat.

  Lemma hole_anchor h ph : P_ h ph -> p_hole ph = true -> (3 <= length (p_raw ph))%nat ->
    (clockwise = true -> second_once (p_raw ph)) ->
    exists t u, hanchor ph t u /\ (p_contour ph = p_raw ph -> p_mod ph = false -> forall dbg, anchor_of dbg clockwise ph = Some (seg u, false)).
  Proof.
    intros Hh Ho Ln On. destruct (steps_at visI ps St h ph Hh) as (vi & vi' & t & Sf & V & _).
    destruct (sf_used _ _ _ _ Sf) as (us & Eu). pose proof (sf_dir _ _ _ _ Sf) as Ed. pose proof (sf_once _ _ _ _ Sf) as So. destruct (sf_first _ _ _ _ Sf) as (c & Er).
    pose proof (sf_hole _ _ _ _ Sf) as Kt. unfold sgn in Kt. rewrite Ho in Kt. change (- (-1)) with 1 in Kt. unfold pdir in *. rewrite Ho in *.
    set (f := fun x => if kR x =? main_dir clockwise then (sa (seg x), sb (seg x)) else (sb (seg x), sa (seg x))) in *.
    set (raw := p_raw ph) in *. set (a := sa (seg t)) in *. set (used := p_used ph) in *.
    assert (It : In t used) by (rewrite Eu; left; auto).
    assert (Ok : forall x, In x used -> valid x /\ ~ pt_lt (sa (seg x)) a /\ pt_lt (sa (seg x)) (sb (seg x)) /\ (kR x = 1 \/ kR x = -1)).
    { intros x Ix. destruct (sf_ok _ _ _ _ Sf x Ix) as [Vx Ux]. split; auto. split; [apply (sf_min _ _ _ _ Sf); auto|]. split; [apply (am_wf _ A); apply seg_in; auto|]. apply (used_ok h ph x Hh Ix). }
    assert (Nb : forall x, In x used -> sb (seg x) <> a).
    { intros x Ix E. destruct (Ok x Ix) as (_ & N & W & _). rewrite E in W. auto. }
    assert (Eun : forall i, nth_error (edges raw) i = option_map f (nth_error used i)) by (intro i; rewrite Ed; apply nth_error_map).
    assert (Len : length raw = length used) by (rewrite <- (map_length f used); rewrite <- Ed; symmetry; apply edges_len).
    assert (Pt : forall i p, nth_error raw i = Some p -> ~ pt_lt p a).
    { intros i p Hp L. pose proof (edge_fst raw i) as E. rewrite Hp, Eun in E.
      destruct (nth_error used i) as [x|] eqn:Ex; [|apply nth_error_None in Ex; assert (i < length raw)%nat by (apply nth_error_Some; congruence); lia].
      apply nth_error_In in Ex. destruct (Ok x Ex) as (_ & N & W & _).
      assert (Fx : fst (f x) = p) by (specialize (E _ eq_refl); congruence).
      unfold f in Fx. destruct (kR x =? main_dir clockwise); cbn [fst] in Fx; subst p; [auto|]. apply N. unfold pt_lt in *. lia. }
    (* the place of the anchor *)
    assert (Pl : exists ia iu, (ia < length raw)%nat /\ nth_error raw ia = Some a /\ (forall i, nth_error raw i = Some a -> i = ia) /\
       (clockwise = true -> ia = 1%nat /\ iu = 1%nat) /\ (clockwise = false -> ia = O /\ iu = (length raw - 1)%nat)).
    { destruct (Bool.eqb true clockwise) eqn:Eb.
      - apply Bool.eqb_prop in Eb. symmetry in Eb. exists 1%nat, 1%nat. split; [lia|].
        assert (E1 : nth_error raw 1 = Some a).
        { assert (E : nth_error (edges raw) 0 = Some (f t)) by (rewrite Eun, Eu; auto). destruct (edge_snd raw 0 _ E) as [H|[H _]]; [|lia].
          rewrite H. unfold f. rewrite Kt, Eb. reflexivity. }
        split; auto. split; [intros i Hi; apply (On Eb a i); auto|]. split; intro; [auto|congruence].
      - apply Bool.eqb_false_iff in Eb. assert (Cf : clockwise = false) by (destruct clockwise; congruence).
        exists O, (length raw - 1)%nat. split; [lia|]. split; [rewrite Er; auto|]. split; [|split; intro; [congruence|auto]].
        intros [|i] Hi; auto. exfalso. rewrite Er in Hi. cbn [nth_error] in Hi. apply nth_error_In in Hi. apply (So eq_refl a); auto. rewrite Er. auto. }
    destruct Pl as (ia & iu & Lia & Ra & Ru & Pc & Pcc).
    assert (Liu : (iu < length raw)%nat) by (destruct clockwise; [destruct (Pc eq_refl)|destruct (Pcc eq_refl)]; lia).
    assert (Niu : (0 < iu)%nat) by (destruct clockwise; [destruct (Pc eq_refl)|destruct (Pcc eq_refl)]; lia).
    destruct (nth_error used iu) as [u|] eqn:Hu; [|apply nth_error_None in Hu; lia].
    assert (Iu : In u used) by (eapply nth_error_In; eauto).
    assert (Ne : t <> u).
    { intros ->. assert (N := sf_nd _ _ _ _ Sf). fold used in N. assert (H0 : nth_error used 0 = Some u) by (rewrite Eu; auto).
      assert (0 = iu)%nat; [|lia]. apply (proj1 (NoDup_nth_error used) N); [rewrite <- Len; lia|congruence]. }
    (* the edges at a *)
    assert (Two : forall x, In x used -> sa (seg x) = a -> x = t \/ x = u).
    { intros x Ix Sx. apply In_nth_error in Ix as Ix'. destruct Ix' as (i & Hi). pose proof (Eun i) as E. rewrite Hi in E. cbn [option_map] in E.
      pose proof (edge_fst raw i (f x) E) as E1. pose proof (edge_snd raw i (f x) E) as E2.
      assert (H0 : forall y, nth_error used 0 = Some y -> y = t) by (rewrite Eu; intros y Y; injection Y; auto).
      assert (D : fst (f x) = a \/ snd (f x) = a) by (unfold f; rewrite Sx; destruct (kR x =? main_dir clockwise); auto).
      destruct D as [D|D].
      - rewrite D in E1. apply Ru in E1. subst i. destruct clockwise.
        + destruct (Pc eq_refl) as [-> ->]. right. congruence.
        + destruct (Pcc eq_refl) as [-> ->]. left. auto.
      - rewrite D in E2. destruct E2 as [Hq|[Li Hq]]; apply Ru in Hq.
        + destruct clockwise; [|destruct (Pcc eq_refl); lia].
          destruct (Pc eq_refl) as [-> ->]. assert (i = O) by lia. subst i. left; auto.
        + destruct clockwise; [destruct (Pc eq_refl); lia|]. destruct (Pcc eq_refl) as [_ ->].
          right. replace i with (length raw - 1)%nat in Hi by lia. congruence. }
    assert (Fu : f u = if clockwise then (a, sb (seg u)) else (sb (seg u), a)).
    { pose proof (Eun iu) as E. rewrite Hu in E. cbn [option_map] in E. pose proof (edge_fst raw iu _ E) as E1. pose proof (edge_snd raw iu _ E) as E2.
      destruct clockwise.
      - destruct (Pc eq_refl) as [-> ->]. assert (Fx : fst (f u) = a) by congruence.
        unfold f in Fx |- *. destruct (kR u =? main_dir true); cbn [fst] in Fx; [congruence|]. exfalso. apply (Nb u Iu); auto.
      - destruct (Pcc eq_refl) as [-> ->]. destruct E2 as [E2|[_ E2]]; [assert (Hq : nth_error raw (S (length raw - 1)) = None) by (apply nth_error_None; lia); congruence|].
        assert (Fx : snd (f u) = a) by congruence.
        unfold f in Fx |- *. destruct (kR u =? main_dir false); cbn [snd] in Fx; [|congruence]. exfalso. apply (Nb u Iu); auto. }
    destruct (Ok u Iu) as (Vu & Nu & Wu & Ku). destruct (Ok t It) as (Vt & _ & Wt & _).
    assert (Su : sa (seg u) = a /\ kR u = -1).
    { unfold f in Fu. pose proof (Nb u Iu) as N. destruct (Z.eqb_spec (kR u) (main_dir clockwise)) as [E|E]; destruct clockwise; cbn [main_dir] in E; split; try congruence; lia. }
    destruct Su as [Su Ku'].
    assert (Lpt : lexpos (vsub (sb (seg t)) a)) by (apply (seg_lexpos g P t Vt)).
    assert (Lpu : lexpos (vsub (sb (seg u)) a)) by (rewrite <- Su; apply (seg_lexpos g P u Vu)).
    assert (Le : vx (vsub (sb (seg t)) a) (vsub (sb (seg u)) a) <= 0).
    { apply (sf_top _ _ _ _ Sf); auto. apply (sf_ok _ _ _ _ Sf u Iu). }
    assert (Lt : vx (vsub (sb (seg t)) a) (vsub (sb (seg u)) a) < 0).
    { destruct (Z.eq_dec (vx (vsub (sb (seg t)) a) (vsub (sb (seg u)) a)) 0) as [E|E]; [|lia]. exfalso.
      assert (Ns : seg t <> seg u) by (intro X; apply Ne; apply (seg_inj g P); auto).
      pose proof (dir_sep ges A a (seg t) (seg u) (seg_in g t Vt) (seg_in g u Vu) Ns (or_introl eq_refl) (or_introl Su)) as Sp.
      unfold dir, other in Sp. fold a in Sp. rewrite Su in Sp. rewrite pt_eqb_refl in Sp. apply Sp. split; auto. apply lex_dot; auto. }
    assert (Nv : px (sa (seg u)) < px (sb (seg u))).
    { rewrite Su. pose proof (lex_nv _ _ Lpt Lpu Lt) as X. unfold vsub in X. cbn [fst] in X. lia. }
    exists t, u. split; [constructor; auto; apply Ok|].
    (* anchor_of *)
    intros Ec Em dbg. unfold anchor_of. rewrite Ec, Em. fold raw.
    assert (Cr : forall x y, cross3 a (sb (seg x)) (sb (seg y)) = vx (vsub (sb (seg x)) a) (vsub (sb (seg y)) a)) by (intros; unfold cross3, vx, vsub; cbn [fst snd]; ring).
    assert (Su' : seg u = XS a (sb (seg u))) by (rewrite <- Su; destruct (seg u); auto).
    assert (Lb : left_bottom_segment raw = Some (seg u) /\ (if clockwise then (nth_error raw 1, nth_error raw 2) else (nth_error raw 0, nth_error raw (length raw - 1))) = (Some a, Some (sb (seg u)))).
    { pose proof (Eun 0%nat) as E0. rewrite edges_nth in E0. rewrite Eu in E0. cbn [nth_error option_map] in E0.
      pose proof (Eun iu) as E1. rewrite edges_nth, Hu in E1. cbn [option_map] in E1. rewrite Fu in E1.
      assert (Ft : f t = if clockwise then (sb (seg t), a) else (a, sb (seg t))) by (unfold f; rewrite Kt; destruct clockwise; reflexivity). rewrite Ft in E0.
      destruct raw as [|r0 [|r1 [|r2 rr]]] eqn:Rr; cbn [length] in Ln; try lia. cbn [nth_error] in E0. destruct clockwise.
      - destruct (Pc eq_refl) as [-> ->]. cbn [nth_error] in *. assert (r0 = sb (seg t) /\ r1 = a) as [-> ->] by (split; congruence). assert (r2 = sb (seg u)) as -> by congruence. split; auto. unfold left_bottom_segment.
        assert (Lab : pt_ltb a (sb (seg t)) = true) by (apply pt_ltb_lt; exact Wt).
        cbn [min_point]. rewrite Lab. rewrite (proj2 (pt_ltb_ge (sb (seg u)) a)) by (apply (Pt 2%nat); auto).
        rewrite min_point_keep by (intros p Ip; apply In_nth_error in Ip as (i & Hi); apply (Pt (S (S (S i)))); auto).
        set (n := length (sb (seg t) :: a :: sb (seg u) :: rr)). assert (Hn : (n >= 3)%nat) by (unfold n; simpl; lia).
        replace ((1 + 1) mod n)%nat with 2%nat by (rewrite Nat.mod_small; lia). replace ((1 + n - 1) mod n)%nat with O by (replace (1 + n - 1)%nat with n by lia; rewrite Nat.mod_same; lia).
        cbn [nth_error]. unfold is_under_segment. cbn [sa sb]. rewrite (proj2 (pt_cmp_eq a a) eq_refl).
        unfold is_clockwise. rewrite Cr. rewrite (proj2 (Z.ltb_lt _ _) Lt). congruence.
      - destruct (Pcc eq_refl) as [-> ->]. cbn [nth_error] in Ra. assert (r1 = sb (seg t) /\ r0 = a) as [-> ->] by (split; congruence).
        assert (Hq : nth_error (a :: sb (seg t) :: r2 :: rr) (S (length (a :: sb (seg t) :: r2 :: rr) - 1)) = None) by (apply nth_error_None; lia).
        rewrite Hq in E1. destruct (nth_error (a :: sb (seg t) :: r2 :: rr) (length (a :: sb (seg t) :: r2 :: rr) - 1)) as [z|] eqn:Hz; [|discriminate]. assert (z = sb (seg u)) as -> by congruence.
        split; auto. unfold left_bottom_segment.
        rewrite min_point_keep by (intros p Ip; apply In_nth_error in Ip as (i & Hi); apply (Pt (S i)); auto).
        set (n := length (a :: sb (seg t) :: r2 :: rr)) in *. assert (Hn : (n >= 3)%nat) by (unfold n; simpl; lia).
        replace ((0 + 1) mod n)%nat with 1%nat by (rewrite Nat.mod_small; lia). replace ((0 + n - 1) mod n)%nat with (n - 1)%nat by (rewrite Nat.mod_small; lia).
        rewrite Hz. cbn [nth_error]. unfold is_under_segment. cbn [sa sb]. rewrite (proj2 (pt_cmp_eq a a) eq_refl).
        unfold is_clockwise. rewrite Cr, vx_anti. destruct (Z.ltb_spec (- vx (vsub (sb (seg t)) a) (vsub (sb (seg u)) a)) 0); [lia|]. congruence. }
    destruct Lb as [Lb Nt]. rewrite Nt, Lb, <- Su'. 
    assert (Xe : xseg_eqb (seg u) (seg u) = true) by (unfold xseg_eqb; rewrite !pt_eqb_refl; auto). rewrite Xe. rewrite andb_false_r. auto.
  Qed.

  (** ** the edge under an anchor *)
  Lemma seg_planar x y : valid x -> valid y -> x <> y -> forall q, on_seg (seg x) q -> on_seg (seg y) q -> is_end (seg x) q /\ is_end (seg y) q.
  Proof. intros V V' N. apply (am_planar _ A); auto using seg_in. intro E. apply N. apply (seg_inj g P); auto. Qed.
  Lemma cross_vx (x y : nat) : sa (seg x) = sa (seg y) -> cross3 (sa (seg x)) (sb (seg x)) (sb (seg y)) = vx (vsub (sb (seg x)) (sa (seg x))) (vsub (sb (seg y)) (sa (seg y))).
  Proof. intros E. rewrite <- E. unfold cross3, vx, vsub. cbn [fst snd]. ring. Qed.
  Definition anlt (x y : nat) : Prop := pt_lt (sa (seg x)) (sa (seg y)) \/
    (sa (seg x) = sa (seg y) /\ 0 < vx (vsub (sb (seg x)) (sa (seg x))) (vsub (sb (seg y)) (sa (seg y)))).
  Lemma under_start e u : valid e -> valid u -> spans (seg e) (qx (sa (seg u))) = true -> nonvert (seg u) -> lt_at (qx (sa (seg u))) (seg e) (seg u) -> anlt e u.
  Proof.
    intros Ve Vu Sp Nu L. assert (N : e <> u) by (intros ->; apply (lt_at_irrefl _ _ L)).
    pose proof (spans_own _ Nu) as Su. destruct (pt_cmp (sa (seg e)) (sa (seg u))) eqn:E.
    - apply pt_cmp_eq in E. right. split; auto. rewrite <- cross_vx by auto. apply (same_start (seg e) (seg u) (qx (sa (seg u)))); auto. apply seg_planar; auto.
    - apply pt_cmp_lt in E. left; auto.
    - apply pt_cmp_gt in E. exfalso. apply spans_iff in Sp as [S1 S2].
      assert (X : px (sa (seg e)) <= px (sa (seg u))) by (apply qz_le; exact S1). unfold pt_lt in E.
      assert (Ex : px (sa (seg e)) = px (sa (seg u))) by lia. assert (Ey : py (sa (seg u)) < py (sa (seg e))) by lia.
      assert (Qe : (qx (sa (seg u)) == qx (sa (seg e)))%Q) by (unfold qx; rewrite Ex; reflexivity).
      assert (He : (height (seg e) (qx (sa (seg u))) == qy (sa (seg e)))%Q) by (rewrite Qe; apply height_at_a).
      pose proof (height_at_a (seg u)) as Hu. pose proof (proj2 (qz_lt _ _) Ey) as Hy. unfold lt_at in L. unfold qy in *. lra.
  Qed.

  Lemma anchor_edge h ph t u : P_ h ph -> p_hole ph = true -> hanchor ph t u ->
    exists e j pj, P_ j pj /\ In e (p_used pj) /\ kR e = 1 /\ spans (seg e) (qx (sa (seg u))) = true /\ lt_at (qx (sa (seg u))) (seg e) (seg u) /\ anlt e u /\
      (forall y, valid y -> kR y = 1 -> spans (seg y) (qx (sa (seg u))) = true -> lt_at (qx (sa (seg u))) (seg y) (seg u) -> y <> e -> lt_at (qx (sa (seg u))) (seg y) (seg e)) /\
      (forall o, shape_of h o <-> shape_of j o) /\
      (forall tj uj, p_hole pj = true -> hanchor pj tj uj -> j <> h /\ anlt uj u).
  Proof.
    intros Hh Ho Ha. destruct (used_ok h ph u Hh (ha_u _ _ _ Ha)) as (Vu & _ & _).
    assert (Nu : nonvert (seg u)) by (unfold nonvert; apply qlt_z; apply (ha_nv _ _ _ Ha)).
    set (Pr := fun e => negb (kx kR e =? 0)).
    assert (PrC : forall j p, P_ j p -> forall y, In y ges -> kC p y <> 0 -> Pr y = true).
    { intros j p Hp y Iy K. apply in_seg in Iy as (i & Vi & ->). unfold Pr. rewrite kx_seg in * by auto. unfold fC in K. apply negb_true_iff, Z.eqb_neq. destruct (memn i (p_used p)); congruence. }
    assert (PrR : forall y, In y ges -> kx kR y <> 0 -> Pr y = true) by (intros y _ K; unfold Pr; apply negb_true_iff, Z.eqb_neq; auto).
    destruct (highest_below ges A Pr (seg u) (seg_in g u Vu) Nu) as [H|(e0 & Ie & Pe & Se & Le & Mx & Bt)].
    { exfalso. specialize (H (kx kR) PrR). pose proof (top_bot g (kx kR) u) as E. rewrite kx_seg in E by auto. rewrite (ha_ku _ _ _ Ha) in E.
      destruct (side_pts g P (kx kR) u Vu BR) as [[q Q] _]. pose proof (WR q). lia. }
    apply in_seg in Ie as (e & Ve & ->). unfold Pr in Pe. rewrite kx_seg in Pe by auto. apply negb_true_iff, Z.eqb_neq in Pe.
    assert (Ue : not_visited visI e = true) by (specialize (KR e Ve); destruct (not_visited visI e); auto; congruence).
    destruct (steps_all visI ps St e Ve Ue) as (j & pj & Hj & Iej).
    destruct (same_shape u e h j ph pj Hh Hj (ha_u _ _ _ Ha) Iej (ha_ku _ _ _ Ha)) as [Ke Sh].
    { intros k x Hx. apply Bt; [apply (balC k x Hx)|]. eapply PrC; eauto. }
    { apply Bt; auto. }
    pose proof (under_start e u Ve Vu Se Nu Le) as Lt.
    exists e, j, pj. do 6 (split; auto). split; [|split; auto].
    - intros y Vy Ky Sy Ly Ny. apply Mx; auto using seg_in.
      + unfold Pr. rewrite kx_seg by auto. rewrite Ky. auto.
      + intro E. apply Ny. apply (seg_inj g P); auto.
    - intros tj uj Hol Hb. pose proof (ha_min _ _ _ Hb e Iej) as Mn. pose proof (ha_two _ _ _ Hb e Iej) as Tw.
      assert (Nj : j <> h).
      { intros ->. assert (pj = ph) by (unfold at_ in *; congruence). subst pj.
        destruct Lt as [L|[E L]].
        - apply (ha_min _ _ _ Ha e Iej). rewrite <- (ha_sa _ _ _ Ha). auto.
        - destruct (ha_two _ _ _ Ha e Iej) as [X|X]; [rewrite E; apply (ha_sa _ _ _ Ha)| |].
          + subst e. pose proof (ha_below _ _ _ Ha) as B. rewrite (ha_sa _ _ _ Ha) in L. lia.
          + subst e. rewrite (ha_ku _ _ _ Ha) in Ke. lia. }
      split; auto. destruct (used_ok j pj uj Hj (ha_u _ _ _ Hb)) as (Vuj & _ & _). destruct (used_ok j pj tj Hj (ha_t _ _ _ Hb)) as (Vtj & _ & _).
      assert (Ord : pt_lt (sa (seg tj)) (sa (seg e)) \/ sa (seg tj) = sa (seg e)).
      { destruct (pt_cmp (sa (seg tj)) (sa (seg e))) eqn:C0; [apply pt_cmp_eq in C0|apply pt_cmp_lt in C0|apply pt_cmp_gt in C0]; auto; contradiction. }
      unfold anlt. rewrite (ha_sa _ _ _ Hb). destruct Lt as [L|[E L]].
      + left. destruct Ord as [O|O]; [|rewrite O; auto]. unfold pt_lt in *. lia.
      + destruct Ord as [O|O]; [left; rewrite <- E; auto|]. right. split; [congruence|].
        destruct (Tw (eq_sym O)) as [X|X]; [|subst e; rewrite (ha_ku _ _ _ Hb) in Ke; lia]. subst tj.
        pose proof (ha_below _ _ _ Hb) as B. rewrite <- (ha_sa _ _ _ Hb) in B.
        assert (Ax : sa (seg uj) = sa (seg u)) by (rewrite (ha_sa _ _ _ Hb); auto).
        rewrite (ha_sa _ _ _ Hb) in B.
        pose proof (seg_lexpos g P e Ve) as L1. pose proof (seg_lexpos g P u Vu) as L2. pose proof (seg_lexpos g P uj Vuj) as L3. rewrite (ha_sa _ _ _ Hb) in L3.
        pose proof (lex_trans _ _ _ L1 L2 L3 ltac:(lia) ltac:(lia)) as T. rewrite vx_anti in T.
        set (X := vx (vsub (sb (seg uj)) (sa (seg e))) (vsub (sb (seg u)) (sa (seg u)))) in *.
        destruct (Z.eq_dec X 0) as [Z0|]; [|lia]. exfalso.
        assert (Nuj : uj <> u) by (intros ->; apply Nj; apply (disjoint j h pj ph u); auto; [apply (ha_u _ _ _ Hb)|apply (ha_u _ _ _ Ha)]).
        assert (Ns : seg uj <> seg u) by (intro Y; apply Nuj; apply (seg_inj g P); auto).
        pose proof (dir_sep ges A (sa (seg u)) (seg uj) (seg u) (seg_in g uj Vuj) (seg_in g u Vu) Ns (or_introl Ax) (or_introl eq_refl)) as Sp.
        unfold dir, other in Sp. rewrite Ax, pt_eqb_refl in Sp. apply Sp. unfold X in Z0. rewrite E in Z0, L3. split; auto. apply lex_dot; auto.
  Qed.

  (** ** the whole binding, contours as found *)
  Section Plain.
  Hypothesis Cl : forall i p, P_ i p -> p_contour p = p_raw p /\ p_mod p = false /\ (3 <= length (p_raw p))%nat.

  (** the holes ([true]) or the outer contours ([false]) with their places in [ps] *)
  Definition isel (h : bool) (p : piece) : bool := p_valid p && (if h then p_hole p else negb (p_hole p)).
  Definition sel (h : bool) : list (nat * piece) := filter (fun ip => isel h (snd ip)) (enum ps).
  Lemma at_valid i p : P_ i p -> p_valid p = true.
  Proof. intro H. destruct (steps_at visI ps St i p H) as (vi & vi' & t & Sf & _). apply (sf_valid _ _ _ _ Sf). Qed.
  Lemma sel_snd h : map snd (sel h) = filter (isel h) ps.
  Proof. unfold sel. rewrite <- (enum_snd ps) at 2. induction (enum ps) as [|x l IH]; auto. cbn [filter map]. destruct (isel h (snd x)); cbn [map]; rewrite IH; auto. Qed.
  Lemma sel_len h : length (sel h) = length (filter (isel h) ps).
  Proof. rewrite <- sel_snd, map_length. auto. Qed.
  Lemma sel_at h k i p : nth_error (sel h) k = Some (i, p) -> P_ i p /\ p_hole p = h /\ nth_error (filter (isel h) ps) k = Some p.
  Proof.
    intro H. split; [|split].
    - apply nth_error_In in H. apply filter_In in H as [H _]. apply enum_nth in H. exact H.
    - apply nth_error_In in H. apply filter_In in H as [_ H]. cbn [snd] in H. unfold isel in H. apply andb_true_iff in H as [_ H]. destruct h; [auto|destruct (p_hole p); auto; discriminate].
    - rewrite <- sel_snd, nth_error_map, H. auto.
  Qed.
  Lemma sel_of h k p : nth_error (filter (isel h) ps) k = Some p -> exists i, nth_error (sel h) k = Some (i, p).
  Proof. rewrite <- sel_snd, nth_error_map. destruct (nth_error (sel h) k) as [[i p']|]; simpl; [|discriminate]. intro H. injection H as ->. eauto. Qed.
  Lemma sel_ex i p : P_ i p -> exists k, nth_error (sel (p_hole p)) k = Some (i, p).
  Proof.
    intro H. apply In_nth_error. apply filter_In. split; [apply enum_nth; exact H|]. cbn [snd]. unfold isel. rewrite (at_valid i p H). destruct (p_hole p); auto.
  Qed.
  Lemma sel_nd h : NoDup (map fst (sel h)).
  Proof.
    assert (N : NoDup (map fst (enum ps))) by (rewrite enum_fst; apply seq_NoDup). unfold sel. induction (enum ps) as [|x l IH]; [constructor|].
    cbn [map] in N. inversion N as [|? ? N1 N2]; subst. cbn [filter]. destruct (isel h (snd x)); auto. cbn [map]. constructor; auto.
    intro I. apply N1. apply in_map_iff in I as (y & Ey & Iy). apply filter_In in Iy as [Iy _]. rewrite <- Ey. apply in_map; auto.
  Qed.
  Lemma sel_fun h k k' i p p' : nth_error (sel h) k = Some (i, p) -> nth_error (sel h) k' = Some (i, p') -> k = k'.
  Proof.
    intros H H'. apply (proj1 (NoDup_nth_error _) (sel_nd h)); [rewrite map_length; apply nth_error_Some; congruence|]. rewrite !nth_error_map, H, H'. auto.
  Qed.
  Lemma sel_lt h k k' i i' p p' : (k < k')%nat -> nth_error (sel h) k = Some (i, p) -> nth_error (sel h) k' = Some (i', p') -> (i < i')%nat.
  Proof.
    assert (S : StronglySorted (fun a b => (fst a < fst b)%nat) (sel h)).
    { apply SS_filter. unfold enum. generalize 0%nat. clear. induction ps as [|x l IH]; intro n; [constructor|]. cbn [length seq combine]. constructor; auto.
      apply Forall_forall. intros [j y] I. apply in_combine_l in I. apply in_seq in I. cbn [fst]. lia. }
    revert k k'. induction S as [|x l S IH F]; intros k k' L H H'; [destruct k; discriminate|].
    destruct k' as [|k']; [lia|]. destruct k as [|k]; [|apply (IH k k'); auto; lia].
    cbn [nth_error] in *. rewrite Forall_forall in F. injection H as ->. apply nth_error_In in H'. apply (F _ H').
  Qed.
  Lemma outers_sel : outer_contours ps = map p_contour (filter (isel false) ps).
  Proof. reflexivity. Qed.
  Lemma holes_sel : hole_contours ps = map p_contour (filter (isel true) ps).
  Proof. reflexivity. Qed.

  (** the segments of one contour *)
  Definition segsof (h : bool) (xm xM : Z) (ix : nat) (c : list pt) : list idseg := flat_map (put_id h ix xm xM) (edges (if clockwise then c else rev c)).
  Definition keepseg (xm xM : Z) (x : nat) : Prop := kR x = 1 /\ px (sa (seg x)) < px (sb (seg x)) /\ xm < px (sb (seg x)) /\ px (sa (seg x)) <= xM.
  Lemma segs_perm h xm xM ix i p : P_ i p -> exists f, Permutation (segsof h xm xM ix (p_raw p)) (flat_map f (p_used p)) /\
    forall x, In x (p_used p) -> (keepseg xm xM x /\ f x = [IdS h ix (seg x)]) \/ (~ keepseg xm xM x /\ f x = []).
  Proof.
    intro Hp. destruct (steps_at visI ps St i p Hp) as (vi & vi' & t & Sf & _). pose proof (sf_dir _ _ _ _ Sf) as Ed.
    exists (fun x => put_id h ix xm xM (if kR x =? 1 then (sb (seg x), sa (seg x)) else (sa (seg x), sb (seg x)))). split.
    - unfold segsof. assert (E : Permutation (edges (if clockwise then p_raw p else rev (p_raw p))) (map (fun x => if kR x =? 1 then (sb (seg x), sa (seg x)) else (sa (seg x), sb (seg x))) (p_used p))).
      { assert (Mp : forall (f f' : nat -> pt * pt) l, (forall x, In x l -> f x = f' x) -> map f l = map f' l) by (intros; apply map_ext_in; auto).
        unfold main_dir in Ed. destruct clockwise.
        - rewrite Ed. erewrite Mp; [reflexivity|]. intros x I. cbv beta. destruct (used_ok i p x Hp I) as (_ & _ & [->| ->]); auto.
        - rewrite edges_rev, Ed, map_map. erewrite Mp; [reflexivity|]. intros x I. cbv beta. destruct (used_ok i p x Hp I) as (_ & _ & [->| ->]); auto. }
      rewrite (Permutation_flat_map _ E). rewrite flat_map_concat_map, map_map, <- flat_map_concat_map. reflexivity.
    - intros x I. destruct (used_ok i p x Hp I) as (V & _ & K). pose proof (seg_lexpos g P x V) as L. unfold lexpos, vsub in L. cbn [fst snd] in L. unfold put_id, keepseg.
      destruct K as [K|K]; rewrite K; cbn [Z.eqb Pos.eqb fst snd].
      + destruct (Z.ltb_spec (px (sa (seg x))) (px (sb (seg x)))), (Z.ltb_spec xm (px (sb (seg x)))), (Z.leb_spec (px (sa (seg x))) xM); cbn [andb];
          try (right; split; [lia|reflexivity]). left. split; [auto|]. destruct (seg x); auto.
      + right. split; [lia|]. destruct (Z.ltb_spec (px (sb (seg x))) (px (sa (seg x)))); [lia|]. auto.
  Qed.
  Lemma segs_in h xm xM ix i p y : P_ i p -> (In y (segsof h xm xM ix (p_raw p)) <-> exists x, In x (p_used p) /\ keepseg xm xM x /\ y = IdS h ix (seg x)).
  Proof.
    intro Hp. destruct (segs_perm h xm xM ix i p Hp) as (f & Pf & Hf). split.
    - intro I. apply (Permutation_in _ Pf) in I. apply in_flat_map in I as (x & Ix & I). exists x. split; auto.
      destruct (Hf x Ix) as [[K E]|[K E]]; rewrite E in I; [destruct I as [<-|[]]; auto|destruct I].
    - intros (x & Ix & K & ->). apply (Permutation_in _ (Permutation_sym Pf)). apply in_flat_map. exists x. split; auto.
      destruct (Hf x Ix) as [[_ E]|[N _]]; [rewrite E; left; auto|contradiction].
  Qed.
  Lemma segs_nd h xm xM ix i p : P_ i p -> NoDup (map id_seg (segsof h xm xM ix (p_raw p))).
  Proof.
    intro Hp. destruct (segs_perm h xm xM ix i p Hp) as (f & Pf & Hf). destruct (steps_at visI ps St i p Hp) as (vi & vi' & t & Sf & _).
    eapply Permutation_NoDup; [apply Permutation_sym, Permutation_map, Pf|]. rewrite map_flat_map. apply NoDup_flat_map; [apply (sf_nd _ _ _ _ Sf)| |].
    - intros x I. destruct (Hf x I) as [[_ ->]|[_ ->]]; repeat constructor; auto.
    - intros x y z Ix Iy Iz Iz'. destruct (Hf x Ix) as [[_ E]|[_ E]]; rewrite E in Iz; [|destruct Iz]. destruct (Hf y Iy) as [[_ E']|[_ E']]; rewrite E' in Iz'; [|destruct Iz'].
      cbn [map id_seg] in *. destruct Iz as [<-|[]], Iz' as [Y|[]]. apply (seg_inj g P); [apply (used_ok i p); auto|apply (used_ok i p); auto|auto].
  Qed.

  (** all segments of the holes or of the outer contours *)
  Definition segsall (h : bool) (xm xM : Z) : list idseg :=
    flat_map (fun ic => segsof h xm xM (fst ic) (snd ic)) (enum (map p_contour (filter (isel h) ps))).
  Lemma segsall_some h xm xM : id_of_contours h xm xM clockwise (map p_contour (filter (isel h) ps)) = Some (segsall h xm xM).
  Proof.
    apply id_contours_some. intros c I. apply in_map_iff in I as (p & <- & I). apply filter_In in I as [I _]. apply In_nth_error in I as (i & Hi).
    destruct (Cl i p Hi) as (-> & _ & L). intro E. rewrite E in L. simpl in L. lia.
  Qed.
  Lemma enum_sel h ix c : In (ix, c) (enum (map p_contour (filter (isel h) ps))) <-> exists i p, nth_error (sel h) ix = Some (i, p) /\ c = p_raw p.
  Proof.
    rewrite enum_nth, nth_error_map. split.
    - destruct (nth_error (filter (isel h) ps) ix) as [p|] eqn:E; [|discriminate]. simpl. intro H. injection H as <-. destruct (sel_of h ix p E) as (i & Hi).
      exists i, p. split; auto. destruct (sel_at h ix i p Hi) as (Hp & _). apply (Cl i p Hp).
    - intros (i & p & H & ->). destruct (sel_at h ix i p H) as (Hp & _ & ->). simpl. destruct (Cl i p Hp) as (-> & _). auto.
  Qed.
  Lemma segsall_in h xm xM y : In y (segsall h xm xM) <-> exists i p x, nth_error (sel h) (id_ix y) = Some (i, p) /\ id_hole y = h /\ In x (p_used p) /\ keepseg xm xM x /\ id_seg y = seg x.
  Proof.
    unfold segsall. rewrite in_flat_map. split.
    - intros ([ix c] & Ic & Iy). cbn [fst snd] in Iy. apply enum_sel in Ic as (i & p & H & ->). destruct (sel_at h ix i p H) as (Hp & _).
      apply (segs_in h xm xM ix i p y Hp) in Iy as (x & Ix & K & ->). exists i, p, x. cbn [id_ix id_hole id_seg]. auto.
    - intros (i & p & x & H & Eh & Ix & K & Es). exists (id_ix y, p_raw p). split; [apply enum_sel; eauto|]. cbn [fst snd]. destruct (sel_at h _ i p H) as (Hp & _).
      apply (segs_in h xm xM _ i p y Hp). exists x. split; auto. split; auto. destruct y; simpl in *; congruence.
  Qed.
  Lemma segsall_owner h h' xm xM y y' : In y (segsall h xm xM) -> In y' (segsall h' xm xM) -> id_seg y = id_seg y' -> h = h' /\ id_ix y = id_ix y'.
  Proof.
    intros I I' E. apply segsall_in in I as (i & p & x & H & _ & Ix & _ & Es). apply segsall_in in I' as (i' & p' & x' & H' & _ & Ix' & _ & Es').
    destruct (sel_at _ _ _ _ H) as (Hp & Eh & _). destruct (sel_at _ _ _ _ H') as (Hp' & Eh' & _).
    assert (x = x') by (apply (seg_inj g P); [apply (used_ok i p); auto|apply (used_ok i' p'); auto|congruence]). subst x'.
    assert (i = i') by (apply (disjoint i i' p p' x); auto). subst i'. assert (p' = p) by (unfold at_ in *; congruence). subst p'.
    assert (Ehh : h = h') by congruence. split; [exact Ehh|]. rewrite <- Ehh in H'. apply (sel_fun h _ _ i p p); auto.
  Qed.
  Lemma segsall_nd xm xM : NoDup (map id_seg (segsall false xm xM ++ segsall true xm xM)).
  Proof.
    assert (One : forall h, NoDup (map id_seg (segsall h xm xM))).
    { intro h. unfold segsall. rewrite map_flat_map. apply NoDup_flat_map.
      - eapply NoDup_map_inv. rewrite enum_fst. apply seq_NoDup.
      - intros [ix c] I. cbn [fst snd]. apply enum_sel in I as (i & p & H & ->). apply (segs_nd h xm xM ix i p). apply (sel_at h ix i p H).
      - intros [ix c] [ix' c'] z I I' Iz Iz'. cbn [fst snd] in *.
        assert (Q : forall jx d, In (jx, d) (enum (map p_contour (filter (isel h) ps))) -> In z (map id_seg (segsof h xm xM jx d)) -> exists y, In y (segsall h xm xM) /\ id_seg y = z /\ id_ix y = jx).
        { intros jx d J Jz. apply in_map_iff in Jz as (y & Ey & Iy). exists y. split; [unfold segsall; apply in_flat_map; exists (jx, d); auto|]. split; auto.
          apply enum_sel in J as (i & p & H & ->). destruct (sel_at h jx i p H) as (Hp & _). apply (segs_in h xm xM jx i p y Hp) in Iy as (x & _ & _ & ->). auto. }
        destruct (Q ix c I Iz) as (y & Jy & Ey & Xy). destruct (Q ix' c' I' Iz') as (y' & Jy' & Ey' & Xy').
        destruct (segsall_owner h h xm xM y y' Jy Jy') as [_ X]; [congruence|]. assert (ix = ix') by congruence. clear X Xy Xy'. subst ix'.
        f_equal. apply enum_nth in I, I'. congruence. }
    rewrite map_app. apply NoDup_join; auto. intros z I I'. apply in_map_iff in I as (y & Ey & Iy). apply in_map_iff in I' as (y' & Ey' & Iy').
    destruct (segsall_owner false true xm xM y y' Iy Iy') as [X _]; congruence.
  Qed.

  (** the anchors *)
  Lemma anchors_list dbg : forall l ix, (forall p, In p l -> p_valid p = true) ->
    (forall p, In p l -> p_hole p = true -> exists s, anchor_of dbg clockwise p = Some (s, false)) ->
    exists an, anchors_of dbg clockwise ix l = Some (an, true) /\ length an = length (filter (isel true) l) /\
      forall k a, nth_error an k = Some a -> id_ix a = (ix + k)%nat /\ exists p, nth_error (filter (isel true) l) k = Some p /\ anchor_of dbg clockwise p = Some (id_seg a, false).
  Proof.
    induction l as [|p l IH]; intros ix V H; cbn [anchors_of filter].
    - exists []. split; auto. split; auto. intros [|k] a E; discriminate.
    - assert (Vp : p_valid p = true) by (apply V; left; auto). assert (Ei : isel true p = p_hole p) by (unfold isel; rewrite Vp; auto). rewrite Ei, Vp. cbn [andb].
      destruct (p_hole p) eqn:Hp.
      + destruct (IH (S ix)) as (an & E & L & A0); [intros; apply V; right; auto|intros; apply H; auto; right; auto|].
        destruct (H p (or_introl eq_refl) Hp) as (s & Es). rewrite Es, E. exists (IdS true ix s :: an). split; auto. split; [simpl; lia|].
        intros [|k] a Ek; cbn [nth_error] in *.
        * injection Ek as <-. cbn [id_ix id_seg]. split; [lia|]. exists p. auto.
        * destruct (A0 k a Ek) as (Ix & q & Q). split; [lia|]. eauto.
      + destruct (IH ix) as (an & E & L & A0); [intros; apply V; right; auto|intros; apply H; auto; right; auto|]. exists an. auto.
  Qed.
  Lemma start_mono h h' ph ph' t u t' u' : (h < h')%nat -> P_ h ph -> P_ h' ph' -> hanchor ph t u -> hanchor ph' t' u' -> ~ pt_lt (sa (seg u')) (sa (seg u)).
  Proof.
    intros L Hh Hh' Ha Ha' Lt. destruct (steps_at visI ps St h ph Hh) as (vi & vi' & s & Sf & V & _). destruct (sf_used _ _ _ _ Sf) as (us & Eu).
    assert (Is : In s (p_used ph)) by (rewrite Eu; left; auto). pose proof (ha_min _ _ _ Ha s Is) as M1. rewrite <- (ha_sa _ _ _ Ha) in M1.
    destruct (used_ok h' ph' u' Hh' (ha_u _ _ _ Ha')) as (Vu & Uu & _).
    assert (Un : not_visited vi u' = true).
    { apply V. split; auto. intros j p' Lj Hj I. assert (j = h') by (eapply disjoint; eauto; apply (ha_u _ _ _ Ha')). lia. }
    pose proof (sf_min _ _ _ _ Sf u' Vu Un) as M2. destruct (pt_total (sa (seg s)) (sa (seg u'))) as [[X|X]|X]; [|rewrite X in M1; auto|auto].
    apply M1. eapply pt_lt_trans; eauto.
  Qed.

  (** hole number [ix] belongs to outer contour number [k] *)
  Definition belongs (ix k : nat) : Prop := exists h ph o po, nth_error (sel true) ix = Some (h, ph) /\ nth_error (sel false) k = Some (o, po) /\ parent h o.
  Lemma belongs_ex ix h ph : nth_error (sel true) ix = Some (h, ph) -> exists k, belongs ix k.
  Proof.
    intro H. destruct (sel_at _ _ _ _ H) as (Hp & Hh & _). destruct (parent_ex h ph Hp Hh) as (o & Pa). pose proof Pa as (ph' & po & _ & Ho & _ & Hpo & _).
    destruct (sel_ex o po Ho) as (k & Hk). rewrite Hpo in Hk. exists k, h, ph, o, po. auto.
  Qed.
  Definition join_pieces (dbg : bool) : option (list (list (list pt))) :=
    match anchors_of dbg clockwise 0 ps with
    | None => None
    | Some (anchors, srt) => join_sorted_holes dbg (map (fun c => [c]) (outer_contours ps)) (hole_contours ps) (if srt then anchors else isort a_leb anchors) clockwise
    end.
  Hypothesis On : clockwise = true -> forall i p, P_ i p -> p_hole p = true -> second_once (p_raw p).
  Lemma bind_shapes dbg : exists out par, join_pieces dbg = Some out /\ assembled (outer_contours ps) (hole_contours ps) par out /\
    forall ix k, nth_error par ix = Some k -> belongs ix k.
  Proof.
    destruct (anchors_list dbg ps 0) as (an & Ea & La & An0).
    { intros p I. apply In_nth_error in I as (i & Hi). apply (at_valid i p Hi). }
    { intros p I Hp. apply In_nth_error in I as (i & Hi). destruct (Cl i p Hi) as (C1 & C2 & C3).
      destruct (hole_anchor i p Hi Hp C3) as (t & u & _ & E); [intro; eapply On; eauto|]. exists (seg u). apply E; auto. }
    assert (An : forall ix a, nth_error an ix = Some a -> id_ix a = ix /\ exists h ph t u, nth_error (sel true) ix = Some (h, ph) /\ hanchor ph t u /\ id_seg a = seg u).
    { intros ix a E. destruct (An0 ix a E) as (Ix & p & Np & Ap). split; [lia|]. destruct (sel_of true ix p Np) as (h & Hh). destruct (sel_at _ _ _ _ Hh) as (Hp & Ho & _).
      destruct (Cl h p Hp) as (C1 & C2 & C3). destruct (hole_anchor h p Hp Ho C3) as (t & u & Ha & Eu); [intro; eapply On; eauto|].
      exists h, p, t, u. split; auto. split; auto. specialize (Eu C1 C2 dbg). rewrite Ap in Eu. assert (X : Some (id_seg a) = Some (seg u)) by congruence. congruence. }
    unfold join_pieces. rewrite Ea, holes_sel, outers_sel. clear Ea An0.
    assert (Lh : length (map p_contour (filter (isel true) ps)) = length an) by (rewrite map_length; auto).
    destruct (map p_contour (filter (isel true) ps)) as [|h0 hs] eqn:Eh.
    { (* no holes *)
      exists (map (fun c => [c]) (map p_contour (filter (isel false) ps))), []. split.
      - unfold join_sorted_holes. destruct (map (fun c => [c]) _) as [|s [|s' l]]; auto.
      - split; [|intros [|ix] k E; discriminate]. split; auto. split; auto. split; [apply map_length|]. intros k o E. rewrite (single_nth _ k o E). unfold given. simpl. auto. }
    destruct (map p_contour (filter (isel false) ps)) as [|o0 [|o1 os]] eqn:Eo.
    { (* holes without outer contours: impossible *)
      exfalso. destruct an as [|a an]; [simpl in Lh; lia|]. destruct (An 0%nat a eq_refl) as (_ & h & ph & t & u & Hh & _). destruct (belongs_ex _ _ _ Hh) as (k & h' & ph' & o & po & _ & Ho & _).
      destruct (sel_at _ _ _ _ Ho) as (_ & _ & X). apply map_eq_nil in Eo. rewrite Eo in X. destruct k; discriminate. }
    { (* a single outer contour *)
      exists [o0 :: h0 :: hs], (repeat O (length (h0 :: hs))). split; [reflexivity|]. split.
      - split; [apply repeat_length|]. split; [apply Forall_forall; intros x I; apply repeat_spec in I; subst x; simpl; lia|]. split; auto.
        intros k c E. destruct k as [|[|k]]; simpl in E; try discriminate. injection E as <-. rewrite given_all. auto.
      - intros ix k E. pose proof E as E0. apply nth_error_In, repeat_spec in E. subst k. assert (L : (ix < length an)%nat) by (rewrite <- Lh, <- (repeat_length O (length (h0 :: hs))); apply nth_error_Some; congruence).
        destruct (nth_error an ix) as [a|] eqn:Ha; [|apply nth_error_None in Ha; lia]. destruct (An ix a Ha) as (_ & h & ph & t & u & Hh & _).
        destruct (belongs_ex _ _ _ Hh) as (k & B). pose proof B as (h' & ph' & o & po & _ & Ho & _). destruct (sel_at _ _ _ _ Ho) as (_ & _ & X).
        assert (k = 0)%nat; [|subst k; auto]. assert (L2 : (k < length (filter (isel false) ps))%nat) by (apply nth_error_Some; congruence).
        rewrite <- (map_length p_contour), Eo in L2. simpl in L2. lia. }
    (* the scan *)
    set (an' := add_sort_by_angle an).
    assert (Pa : Permutation an' an) by apply add_sort_perm.
    assert (Fa : Forall flat an).
    { apply Forall_forall. intros a I. apply In_nth_error in I as (ix & E). destruct (An ix a E) as (_ & h & ph & t & u & _ & Ha & Es). unfold flat. rewrite Es. apply (ha_nv _ _ _ Ha). }
    assert (Sa : StronglySorted (fun s t => a_leb s t = true) an).
    { apply SS_nth. intros i j a b L Ei Ej. destruct (An i a Ei) as (_ & h & ph & t & u & Hh & Ha & Es). destruct (An j b Ej) as (_ & h' & ph' & t' & u' & Hh' & Ha' & Es').
      unfold a_leb. rewrite Es, Es'. apply pt_leb_le. eapply (start_mono h h' ph ph'); eauto; [eapply sel_lt; eauto|apply (sel_at _ _ _ _ Hh)|apply (sel_at _ _ _ _ Hh')]. }
    assert (Sa' : StronglySorted (fun s t => a_angle_leb s t = true) an') by (apply add_sort_sorted; auto).
    assert (An' : forall a, In a an' -> nth_error an (id_ix a) = Some a).
    { intros a I. apply (Permutation_in _ Pa) in I. apply In_nth_error in I as (ix & E). destruct (An ix a E) as (-> & _). auto. }
    assert (Ne : an' <> []).
    { intro E. rewrite E in Pa. apply Permutation_nil in Pa. rewrite Pa in Lh. simpl in Lh. lia. }
    assert (Go : join_sorted_holes dbg (map (fun c => [c]) (o0 :: o1 :: os)) (h0 :: hs) an clockwise = scan_join dbg (map (fun c => [c]) (o0 :: o1 :: os)) (h0 :: hs) an' clockwise).
    { cbn [map join_sorted_holes]. rewrite (sorted_a_ok an Sa). rewrite andb_false_r. reflexivity. }
    rewrite Go. unfold scan_join. destruct an' as [|first rest] eqn:Ean; [congruence|]. rewrite <- Ean in *.
    assert (Al : all_some (map (@hd_error (list pt)) (map (fun c => [c]) (o0 :: o1 :: os))) = Some (o0 :: o1 :: os)).
    { rewrite map_map. rewrite (all_some_map _ (fun c => c)); [rewrite map_id; auto|]. auto. }
    rewrite Al. set (xm := px (sa (id_seg first))). set (xM := px (sa (id_seg (last an' first)))).
    assert (Xm : forall a, In a an' -> xm <= px (sa (id_seg a)) /\ px (sa (id_seg a)) <= xM).
    { intros a I. split.
      - apply a_angle_px. rewrite Ean in I, Sa'. inversion Sa' as [|? ? _ F]; subst. destruct I as [->|I]; [apply a_angle_refl|]. rewrite Forall_forall in F. auto.
      - apply a_angle_px. apply (last_max (fun s t => a_angle_leb s t = true)); auto. apply a_angle_refl. }
    rewrite <- Eo, <- Eh. rewrite (segsall_some false xm xM), (segsall_some true xm xM). rewrite map_length.
    set (segs0 := isort a_angle_leb (segsall false xm xM ++ segsall true xm xM)).
    assert (Ps : Permutation segs0 (segsall false xm xM ++ segsall true xm xM)) by apply isort_perm.
    assert (Sin : forall y, In y segs0 -> exists h i p x, In y (segsall h xm xM) /\ nth_error (sel h) (id_ix y) = Some (i, p) /\ P_ i p /\ id_hole y = h /\ In x (p_used p) /\ keepseg xm xM x /\ id_seg y = seg x).
    { intros y I. apply (Permutation_in _ Ps) in I. apply in_app_iff in I as [I|I]; pose proof I as I0; apply segsall_in in I as (i & p & x & H & Hh & Ix & K & Es);
        [exists false, i, p, x|exists true, i, p, x]; split; auto; split; auto; (split; [apply (sel_at _ _ _ _ H)|]); auto. }
    assert (Fs : forall y, In y segs0 -> In (id_seg y) ges /\ flat y).
    { intros y I. destruct (Sin y I) as (h & i & p & x & _ & _ & Hp & _ & Ix & K & Es). split; [rewrite Es; apply seg_in; apply (used_ok i p x Hp Ix)|]. unfold flat. rewrite Es. apply K. }
    set (init := if dbg then None else Some O). unfold bind. fold init.
    assert (AE : forall a, In a an' -> exists e, under_edge (fun s => In s ges) segs0 a e /\
      (if id_hole e then (exists a', In a' an' /\ id_ix a' = id_ix e /\ a_angle_leb a a' = false) /\ (forall k, belongs (id_ix e) k -> belongs (id_ix a) k) else belongs (id_ix a) (id_ix e))).
    { intros a Ia. destruct (An _ a (An' a Ia)) as (_ & h & ph & t & u & Hh & Ha & Es). destruct (sel_at _ _ _ _ Hh) as (Hp & Ho & _).
      destruct (anchor_edge h ph t u Hp Ho Ha) as (e & j & pj & Hj & Ie & Ke & Spe & Lte & Ane & Mxe & She & Hole).
      destruct (sel_ex j pj Hj) as (k & Hk). destruct (used_ok j pj e Hj Ie) as (Ve & _ & _). destruct (used_ok h ph u Hp (ha_u _ _ _ Ha)) as (Vu & _ & _).
      assert (Ie0 : In (IdS (p_hole pj) k (seg e)) (segsall (p_hole pj) xm xM)).
      { apply segsall_in. exists j, pj, e. cbn [id_ix id_hole id_seg]. split; auto. split; auto. split; auto. split; auto. destruct (Xm a Ia) as [X1 X2]. rewrite Es in X1, X2.
        apply spans_iff in Spe as [S1 S2]. assert (T1 : px (sa (seg e)) <= px (sa (seg u))) by (apply qz_le; exact S1). assert (T2 : px (sa (seg u)) < px (sb (seg e))) by (apply (proj1 (qz_lt _ _)); exact S2).
        unfold keepseg. lia. }
      assert (Is0 : In (IdS (p_hole pj) k (seg e)) segs0).
      { apply (Permutation_in _ (Permutation_sym Ps)). apply in_or_app. destruct (p_hole pj); auto. }
      exists (IdS (p_hole pj) k (seg e)). split.
      - constructor; cbn [id_seg]; rewrite ?Es; auto.
        + apply a_angle_iff. cbn [id_seg]. rewrite Es. destruct Ane as [X|[X1 X2]]; auto. right. split; auto. unfold turn. cbn [id_seg]. rewrite Es. lia.
        + split; [apply seg_in; auto|]. unfold flat. rewrite Es. apply (ha_nv _ _ _ Ha).
        + intros y Iy Sy Ly Ny. destruct (Sin y Iy) as (hh & i & p & x & Iyh & _ & Hpi & Hhy & Ix & K & Ex). rewrite Ex in *. destruct (used_ok i p x Hpi Ix) as (Vx & _ & _).
          apply Mxe; auto; [apply K|]. intros ->. destruct (segsall_owner hh (p_hole pj) xm xM y (IdS (p_hole pj) k (seg e)) Iyh Ie0 Ex) as [X1 X2].
          apply Ny. destruct y as [yh yi ys]. cbn [id_hole id_ix id_seg] in *. congruence.
      - cbn [id_hole id_ix]. destruct (p_hole pj) eqn:Hpj.
        + destruct (sel_at _ _ _ _ Hk) as (_ & _ & Nk). assert (L : (k < length an)%nat) by (rewrite La; apply nth_error_Some; congruence).
          destruct (nth_error an k) as [a'|] eqn:Ek; [|apply nth_error_None in Ek; lia]. destruct (An k a' Ek) as (Ix' & j' & pj' & tj & uj & Hk' & Ha' & Es').
          rewrite Hk in Hk'. injection Hk' as <- <-. destruct (Hole tj uj eq_refl Ha') as [_ Alt]. split.
          * exists a'. split; [apply (Permutation_in _ (Permutation_sym Pa)); eapply nth_error_In; eauto|]. split; auto.
            destruct (a_angle_leb a a') eqn:Lb; auto. exfalso. apply a_angle_iff in Lb. pose proof (turn_anti a a') as Tn. unfold turn in Lb, Tn. rewrite Es, Es' in Lb, Tn.
            destruct Alt as [X|[X1 X2]], Lb as [Y|[Y1 Y2]].
            -- eapply pt_lt_irrefl. eapply pt_lt_trans; eauto.
            -- rewrite Y1 in X. eapply pt_lt_irrefl; eauto.
            -- rewrite X1 in Y. eapply pt_lt_irrefl; eauto.
            -- lia.
          * intros kk (j2 & pj2 & o & po & H1 & H2 & H3). rewrite Hk in H1. injection H1 as <- <-. exists h, ph, o, po. split; auto. split; auto.
            assert (So : shape_of h o) by (apply She; exists pj; split; auto; rewrite Hpj; auto). destruct So as (p' & Hp' & So). assert (p' = ph) by (unfold at_ in *; congruence). subst p'. rewrite Ho in So. auto.
        + assert (So : shape_of h j) by (apply She; exists pj; split; auto; rewrite Hpj; auto). destruct So as (p' & Hp' & So). assert (p' = ph) by (unfold at_ in *; congruence). subst p'. rewrite Ho in So.
          exists h, ph, j, pj. auto. }
    destruct (bind_ok (fun s => In s ges)) with (segs0 := segs0) (nO := length (o0 :: o1 :: os)) (R := belongs) (anchors0 := an') (anchors := an') (done := @nil idseg) (segs := segs0) (fed := @nil idseg)
      (scan := @nil (xseg * owner)) (t := xm) (parents := repeat init (length an')) as (parents & Ep & Lp & Hp).
    - apply (am_planar _ A).
    - exact Fs.
    - eapply Permutation_NoDup; [apply Permutation_map, Permutation_sym, Ps|apply segsall_nd].
    - apply (isort_sorted_on a_angle_leb flat); [intros; apply a_angle_total; auto|intros x y z; apply a_angle_trans|].
      apply Forall_forall. intros y I. apply Fs. apply (Permutation_in _ (Permutation_sym Ps)). auto.
    - intros ix k (h & ph & o & po & _ & Ho & _). destruct (sel_at _ _ _ _ Ho) as (_ & _ & X). rewrite <- Eo, map_length. apply nth_error_Some. congruence.
    - exact Sa'.
    - intros a a' I I' E. pose proof (An' a I) as X. pose proof (An' a' I') as Y. rewrite E in X. congruence.
    - exact AE.
    - reflexivity.
    - reflexivity.
    - constructor; [constructor|intros e []|intros y []].
    - intros a I. apply Xm; auto.
    - intros a I. rewrite repeat_length. rewrite (Permutation_length Pa). apply nth_error_Some. rewrite (An' a I). discriminate.
    - intros a [].
    - rewrite Eo. rewrite Ep. rewrite repeat_length in Lp. rewrite (Permutation_length Pa) in Lp.
      assert (Nth : forall ix x, nth_error parents ix = Some x -> exists k, x = Some k /\ belongs ix k).
      { intros ix x E. assert (L : (ix < length an)%nat) by (rewrite <- Lp; apply nth_error_Some; congruence).
        destruct (nth_error an ix) as [a|] eqn:Ek; [|apply nth_error_None in Ek; lia]. assert (Ia : In a an') by (apply (Permutation_in _ (Permutation_sym Pa)); eapply nth_error_In; eauto).
        destruct (Hp a Ia) as (k & Nk & Bk). destruct (An ix a Ek) as (Ex & _). rewrite Ex in *. exists k. split; auto. congruence. }
      destruct (all_somes parents) as (par & Epar); [intros i x E; destruct (Nth i x E) as (k & -> & _); eauto|].
      assert (Bel : forall ix k, nth_error par ix = Some k -> belongs ix k).
      { intros ix k E. destruct (Nth ix (Some k)) as (k' & Ek & B); [rewrite Epar, nth_error_map, E; auto|]. congruence. }
      rewrite Eh. destruct (push_some (h0 :: hs) par (map (fun c => [c]) (o0 :: o1 :: os))) as (out & Eout).
      + rewrite Lh, <- Lp, Epar, map_length. auto.
      + apply Forall_forall. intros k I. apply In_nth_error in I as (ix & E). destruct (Bel ix k E) as (h & ph & o & po & _ & Ho & _). destruct (sel_at _ _ _ _ Ho) as (_ & _ & X).
        rewrite map_length, <- Eo, map_length. apply nth_error_Some. congruence.
      + rewrite <- Epar in Eout. exists out. destruct (push_assembled _ _ _ _ Eout) as (par' & As & rest' & Er). exists par'. split; auto. split; auto.
        intros ix k E. apply Bel. assert (X : nth_error parents ix = Some (Some k)).
        { rewrite Er, nth_error_app1; [rewrite nth_error_map, E; auto|rewrite map_length; apply nth_error_Some; congruence]. }
        rewrite Epar, nth_error_map in X. destruct (nth_error par ix); simpl in X; congruence.
  Qed.

  End Plain.

  (** ** the whole binding, points between their neighbours dropped *)
  Section Thinned.
  Hypothesis Th : forall i p, P_ i p -> (3 <= length (p_raw p))%nat /\ (3 <= length (p_contour p))%nat /\ thinned (p_contour p) (p_raw p) /\ (p_mod p = false -> p_contour p = p_raw p).
  Definition rawf (x : nat) : pt * pt := if kR x =? main_dir clockwise then (sa (seg x), sb (seg x)) else (sb (seg x), sa (seg x)).
  Definition kE (E : pt * pt) : Z := if up E then main_dir clockwise else - main_dir clockwise.
  Lemma valid_lt x : valid x -> pt_lt (sa (seg x)) (sb (seg x)).
  Proof. intro V. apply (am_wf _ A). apply seg_in; auto. Qed.
  Lemma rawf_facts i p x : P_ i p -> In x (p_used p) -> nrm (rawf x) = seg x /\ kE (rawf x) = kR x /\ fst (rawf x) <> snd (rawf x).
  Proof.
    intros Hp I. destruct (used_ok i p x Hp I) as (V & _ & K). pose proof (valid_lt x V) as L. pose proof (pt_lt_neq _ _ L) as N.
    assert (L' : ~ pt_lt (sb (seg x)) (sa (seg x))) by (intro Q; eapply pt_lt_irrefl; eapply pt_lt_trans; eauto).
    unfold rawf, nrm, kE, up. destruct (Z.eqb_spec (kR x) (main_dir clockwise)) as [E|E]; cbn [fst snd].
    - rewrite (proj2 (pt_ltb_lt _ _) L). split; [destruct (seg x); auto|]. auto.
    - rewrite (proj2 (pt_ltb_ge _ _) L'). split; [destruct (seg x); auto|]. split; [|congruence]. unfold main_dir in *. destruct clockwise; lia.
  Qed.
  Definition runs_of (p : piece) (L : list ((pt * pt) * list (pt * pt))) : Prop := map fst L = edges (p_contour p) /\
    Permutation (concat (map snd L)) (map rawf (p_used p)) /\ Forall (fun x => srun (fst x) (snd x)) L.
  Lemma runs_ex i p : P_ i p -> exists L, runs_of p L.
  Proof.
    intro Hp. destruct (Th i p Hp) as (_ & _ & T & _). destruct (thinned_runs _ _ T) as (L & E1 & E2 & E3). exists L. split; auto. split; auto.
    destruct (steps_at visI ps St i p Hp) as (vi & vi' & t & Sf & _). rewrite (sf_dir _ _ _ _ Sf) in E2. exact E2.
  Qed.
  Lemma runs_nd i p L : P_ i p -> runs_of p L -> NoDup (concat (map snd L)).
  Proof.
    intros Hp (_ & Pm & _). eapply Permutation_NoDup; [apply Permutation_sym; exact Pm|]. destruct (steps_at visI ps St i p Hp) as (vi & vi' & t & Sf & _).
    pose proof (sf_nd _ _ _ _ Sf) as N. assert (V : forall x, In x (p_used p) -> valid x /\ nrm (rawf x) = seg x) by (intros x I; split; [apply (used_ok i p x Hp I)|apply (rawf_facts i p x Hp I)]).
    revert N V. generalize (p_used p) as l. clear - g P. induction l as [|x l IH]; intros N V; [constructor|]. inversion N as [|? ? N1 N2]; subst. cbn [map]. constructor; [|apply IH; auto; intros; apply V; right; auto].
    intro I. apply in_map_iff in I as (y & Ey & Iy). apply N1. assert (x = y); [|subst; auto].
    destruct (V x (or_introl eq_refl)) as [Vx Ex]. destruct (V y (or_intror Iy)) as [Vy Eyy]. apply (seg_inj g P); auto. congruence.
  Qed.
  Definition part (E : pt * pt) (x : nat) : Prop := sub_of (nrm E) (seg x) /\ kR x = kE E.
  Lemma run_edge i p L E l : P_ i p -> runs_of p L -> In (E, l) L -> fst E <> snd E /\ In E (edges (p_contour p)) /\ srun E l /\
    forall e, In e l -> exists x, In x (p_used p) /\ e = rawf x /\ part E x.
  Proof.
    intros Hp R I. destruct R as (E1 & E2 & E3). rewrite Forall_forall in E3. pose proof (E3 _ I) as Sr. cbn [fst snd] in Sr.
    assert (Ru : forall e, In e l -> exists x, In x (p_used p) /\ e = rawf x).
    { intros e Ie. assert (J : In e (map rawf (p_used p))) by (apply (Permutation_in _ E2); apply in_concat; exists l; split; auto; apply in_map_iff; exists (E, l); auto).
      apply in_map_iff in J as (x & <- & J). eauto. }
    assert (Ne : fst E <> snd E).
    { apply (srun_ne E l Sr). intros e Ie. destruct (Ru e Ie) as (x & Ix & ->). apply (rawf_facts i p x Hp Ix). }
    split; auto. split; [rewrite <- E1; apply in_map_iff; exists (E, l); auto|]. split; auto.
    intros e Ie. destruct (Ru e Ie) as (x & Ix & ->). exists x. split; auto. split; auto. destruct (srun_facts E l Sr Ne _ Ie) as (_ & U & W).
    destruct (rawf_facts i p x Hp Ix) as (F1 & F2 & _). rewrite F1 in W. split; auto. rewrite <- F2. unfold kE. rewrite U. auto.
  Qed.
  Lemma in_run p L E : runs_of p L -> In E (edges (p_contour p)) -> exists l, In (E, l) L.
  Proof. intros (E1 & _) I. rewrite <- E1 in I. apply in_map_iff in I as ([E0 l] & <- & I). eauto. Qed.
  Lemma big_ne i p E : P_ i p -> In E (edges (p_contour p)) -> fst E <> snd E.
  Proof. intros Hp I. destruct (runs_ex i p Hp) as (L & R). destruct (in_run p L E R I) as (l & Il). apply (run_edge i p L E l Hp R Il). Qed.
  Lemma big_link i p x : P_ i p -> In x (p_used p) -> exists E, In E (edges (p_contour p)) /\ part E x.
  Proof.
    intros Hp I. destruct (runs_ex i p Hp) as (L & R). assert (J : In (rawf x) (concat (map snd L))) by (apply (Permutation_in _ (Permutation_sym (proj1 (proj2 R)))); apply in_map; auto).
    apply in_concat in J as (l & Il & J). apply in_map_iff in Il as ([E l0] & El & Il). cbn [snd] in El. subst l0. destruct (run_edge i p L E l Hp R Il) as (_ & IE & _ & K).
    exists E. split; auto. destruct (K _ J) as (y & Iy & Ey & Py). assert (x = y); [|subst; auto].
    destruct (used_ok i p x Hp I) as (Vx & _). destruct (used_ok i p y Hp Iy) as (Vy & _). destruct (rawf_facts i p x Hp I) as (F1 & _). destruct (rawf_facts i p y Hp Iy) as (F2 & _).
    apply (seg_inj g P); auto. congruence.
  Qed.
  Lemma big_span i p E z : P_ i p -> In E (edges (p_contour p)) -> spans (nrm E) z = true -> exists x, In x (p_used p) /\ part E x /\ spans (seg x) z = true.
  Proof.
    intros Hp I S. destruct (runs_ex i p Hp) as (L & R). destruct (in_run p L E R I) as (l & Il). destruct (run_edge i p L E l Hp R Il) as (_ & _ & Sr & K).
    destruct (srun_span E l z Sr S) as (e & Ie & Se). destruct (K e Ie) as (x & Ix & -> & Px). exists x. split; auto. split; auto. rewrite (proj1 (rawf_facts i p x Hp Ix)) in Se. auto.
  Qed.
  Lemma big_start i p E : P_ i p -> In E (edges (p_contour p)) -> exists x, In x (p_used p) /\ part E x /\ sa (seg x) = sa (nrm E).
  Proof.
    intros Hp I. destruct (runs_ex i p Hp) as (L & R). destruct (in_run p L E R I) as (l & Il). destruct (run_edge i p L E l Hp R Il) as (_ & _ & Sr & K).
    destruct (srun_start E l Sr) as (e & Ie & Se). destruct (K e Ie) as (x & Ix & -> & Px). exists x. split; auto. split; auto. rewrite (proj1 (rawf_facts i p x Hp Ix)) in Se. auto.
  Qed.
  (** two links from one point along one edge *)
  Lemma same_link s x y : valid x -> valid y -> pt_lt (sa s) (sb s) -> sub_of s (seg x) -> sub_of s (seg y) -> sa (seg x) = sa (seg y) -> x = y.
  Proof.
    intros Vx Vy W Sx Sy E. destruct (Nat.eq_dec x y) as [|N]; auto. exfalso. assert (Ns : seg x <> seg y) by (intro X; apply N; apply (seg_inj g P); auto).
    pose proof (dir_sep ges A (sa (seg x)) (seg x) (seg y) (seg_in g x Vx) (seg_in g y Vy) Ns (or_introl eq_refl) (or_introl (eq_sym E))) as Sp.
    unfold dir, other in Sp. rewrite <- E in Sp. rewrite pt_eqb_refl in Sp. apply Sp.
    pose proof (seg_lexpos g P x Vx) as Lx. pose proof (seg_lexpos g P y Vy) as Ly. rewrite <- E in Ly.
    assert (X0 : vx (vsub (sb (seg x)) (sa (seg x))) (vsub (sb (seg y)) (sa (seg x))) = 0); [|split; auto; apply lex_dot; auto].
    destruct Sx as (_ & B1 & _). destruct Sy as (A2 & B2 & _). rewrite <- E in A2. pose proof (Drawn.line3 (sa s) (sb s) (sa (seg x)) (sb (seg x)) (sb (seg y)) (pt_lt_neq _ _ W) A2 B1 B2) as K.
    unfold cross3 in K. unfold vx, vsub. cbn [fst snd]. lia.
  Qed.
  Lemma nd_runs (L : list ((pt * pt) * list (pt * pt))) : NoDup (concat (map snd L)) ->
    (forall y y', In y L -> In y' L -> nrm (fst y) = nrm (fst y') -> exists e, In e (snd y) /\ In e (snd y')) -> NoDup (map nrm (map fst L)).
  Proof.
    clear. induction L as [|y L IH]; intros N H; [constructor|]. cbn [map concat] in *. constructor.
    - intro I. apply in_map_iff in I as (E & Ee & I). apply in_map_iff in I as (y' & Ey & I). subst E. destruct (H y y' (or_introl eq_refl) (or_intror I) (eq_sym Ee)) as (e & I1 & I2).
      assert (J : In e (concat (map snd L))) by (apply in_concat; exists (snd y'); split; auto; apply in_map; auto).
      revert N I1 J. generalize (concat (map snd L)) as m. generalize (snd y) as l. clear. induction l as [|z l IH]; intros m N I J; [destruct I|]. cbn [app] in N. inversion N as [|? ? N1 N2]; subst.
      destruct I as [->|I]; [apply N1; apply in_or_app; auto|eapply IH; eauto].
    - apply IH; [revert N; generalize (concat (map snd L)) as m; generalize (snd y) as l; clear; induction l as [|z l IH]; intros m N; auto; apply IH; cbn [app] in N; inversion N; auto|]. intros y1 y2 I1 I2. apply H; right; auto.
  Qed.
  Lemma big_nd i p : P_ i p -> NoDup (map nrm (edges (p_contour p))).
  Proof.
    intro Hp. destruct (runs_ex i p Hp) as (L & R). pose proof (runs_nd i p L Hp R) as N. pose proof R as (E1 & _). rewrite <- E1. apply nd_runs; auto.
    intros [E l] [E' l'] I I' Q. cbn [fst snd] in *. destruct (run_edge i p L E l Hp R I) as (Ne & _ & Sr & K). destruct (run_edge i p L E' l' Hp R I') as (Ne' & _ & Sr' & K').
    destruct (srun_start E l Sr) as (e & Ie & Se). destruct (srun_start E' l' Sr') as (e' & Ie' & Se'). destruct (K e Ie) as (x & Ix & -> & Px & _). destruct (K' e' Ie') as (x' & Ix' & -> & Px' & _).
    rewrite (proj1 (rawf_facts i p x Hp Ix)) in Se. rewrite (proj1 (rawf_facts i p x' Hp Ix')) in Se'. rewrite <- Q in Px', Se'.
    assert (x = x'); [|subst x'; eauto]. apply (same_link (nrm E)); auto; [apply (used_ok i p x Hp Ix)|apply (used_ok i p x' Hp Ix')|apply nrm_wf; auto|congruence].
  Qed.
  Lemma big_owner i j p p' E E' : P_ i p -> P_ j p' -> In E (edges (p_contour p)) -> In E' (edges (p_contour p')) -> nrm E = nrm E' -> i = j.
  Proof.
    intros Hp Hp' I I' Q. destruct (big_start i p E Hp I) as (x & Ix & [Sx _] & Ax). destruct (big_start j p' E' Hp' I') as (y & Iy & [Sy _] & Ay). rewrite <- Q in *.
    assert (x = y); [|subst y; apply (disjoint i j p p' x); auto]. apply (same_link (nrm E)); auto; [apply (used_ok i p x Hp Ix)|apply (used_ok j p' y Hp' Iy)|apply nrm_wf; apply (big_ne i p E); auto|congruence].
  Qed.

  Lemma same_run i p L E l E' l' e : P_ i p -> runs_of p L -> In (E, l) L -> In (E', l') L -> In e l -> In e l' -> E = E'.
  Proof.
    intros Hp R I I' Ie Ie'. pose proof (runs_nd i p L Hp R) as N. clear - N I I' Ie Ie'. induction L as [|[E0 l0] L IH]; [destruct I|]. cbn [map concat snd] in N.
    assert (Dj : forall E1 l1, In (E1, l1) L -> In e l1 -> ~ In e l0).
    { intros E1 l1 I1 J1 J0. assert (J : In e (concat (map snd L))) by (apply in_concat; exists l1; split; auto; apply in_map_iff; exists (E1, l1); auto).
      clear - N J0 J. induction l0 as [|z l IH]; [destruct J0|]. cbn [app] in N. inversion N as [|? ? N1 N2]; subst. destruct J0 as [->|J0]; [apply N1; apply in_or_app; auto|auto]. }
    destruct I as [I|I], I' as [I'|I'].
    - congruence.
    - injection I as -> ->. exfalso. eapply Dj; eauto.
    - injection I' as -> ->. exfalso. eapply Dj; eauto.
    - apply IH; auto. clear - N. induction l0 as [|z l IH]; auto. cbn [app] in N. inversion N; auto.
  Qed.
  Lemma q_is_fun q v w : q_is q v -> q_is q w -> v = w.
  Proof.
    intros [A1 A2] [B1 B2]. rewrite A1 in B1. rewrite A2 in B2. destruct v as [x1 y1], w as [x2 y2]. unfold qx, qy in *. cbn [px py] in *.
    apply (proj1 (inject_Z_injective _ _)) in B1. apply (proj1 (inject_Z_injective _ _)) in B2. congruence.
  Qed.
  Lemma end_pt s q : is_end s q -> exists v, q_is q v /\ (v = sa s \/ v = sb s).
  Proof. intros [K|K]; [exists (sa s)|exists (sb s)]; auto. Qed.
  Lemma rawf_ends x v : (v = sa (seg x) \/ v = sb (seg x)) <-> (v = fst (rawf x) \/ v = snd (rawf x)).
  Proof. unfold rawf. destruct (_ =? _); cbn [fst snd]; tauto. Qed.
  Lemma nrm_ends E v : (v = fst E \/ v = snd E) <-> (v = sa (nrm E) \/ v = sb (nrm E)).
  Proof. unfold nrm. destruct (up E); cbn [sa sb]; tauto. Qed.
  Lemma classic_end (E : pt * pt) v : (v = fst E \/ v = snd E) \/ (v <> fst E /\ v <> snd E).
  Proof. destruct (pt_eq_dec v (fst E)); auto. destruct (pt_eq_dec v (snd E)); auto. Qed.
  (** at most two links of the result at every point: the edges that are left meet only in common ends *)
  Lemma untouched_planar : (forall v x y z, valid x -> valid y -> valid z -> not_visited visI x = true -> not_visited visI y = true -> not_visited visI z = true ->
      (v = sa (seg x) \/ v = sb (seg x)) -> (v = sa (seg y) \/ v = sb (seg y)) -> (v = sa (seg z) \/ v = sb (seg z)) -> x = y \/ y = z \/ x = z) ->
    forall i j p p' E E', P_ i p -> P_ j p' -> In E (edges (p_contour p)) -> In E' (edges (p_contour p')) -> nrm E <> nrm E' ->
    forall q, on_seg (nrm E) q -> on_seg (nrm E') q -> is_end (nrm E) q /\ is_end (nrm E') q.
  Proof.
    intro Two.
    assert (Half : forall i j p p' E E', P_ i p -> P_ j p' -> In E (edges (p_contour p)) -> In E' (edges (p_contour p')) -> nrm E <> nrm E' ->
      forall q, on_seg (nrm E) q -> on_seg (nrm E') q -> is_end (nrm E) q); [|intros; split; [eapply (Half i j p p' E E'); eauto|eapply (Half j i p' p E' E); eauto]].
    intros i j p p' E E' Hp Hp' IE IE' N q O O'.
    assert (RR : exists L L', runs_of p L /\ runs_of p' L' /\ (i = j -> L = L' /\ p = p')).
    { destruct (runs_ex i p Hp) as (L & R). destruct (Nat.eq_dec i j) as [X|X].
      - subst j. assert (p' = p) by (unfold at_ in *; congruence). subst p'. exists L, L. auto.
      - destruct (runs_ex j p' Hp') as (L' & R'). exists L, L'. split; auto. split; auto. intro; contradiction. }
    destruct RR as (L & L' & R & R' & Sm). destruct (in_run p L E R IE) as (l & Il). destruct (in_run p' L' E' R' IE') as (l' & Il').
    destruct (run_edge i p L E l Hp R Il) as (Ne & _ & Sr & K). destruct (run_edge j p' L' E' l' Hp' R' Il') as (Ne' & _ & Sr' & K').
    destruct (srun_on E l q Sr O) as (e & Ie & Oe). destruct (srun_on E' l' q Sr' O') as (e' & Ie' & Oe').
    destruct (K e Ie) as (x & Ix & Ex & _). destruct (K' e' Ie') as (x' & Ix' & Ex' & _). rewrite Ex in Oe. rewrite Ex' in Oe'.
    rewrite (proj1 (rawf_facts i p x Hp Ix)) in Oe. rewrite (proj1 (rawf_facts j p' x' Hp' Ix')) in Oe'.
    destruct (used_ok i p x Hp Ix) as (Vx & Ux & _). destruct (used_ok j p' x' Hp' Ix') as (Vx' & Ux' & _).
    assert (Sep : forall y f, In f l -> f = rawf y -> In y (p_used p) -> x' <> y).
    { intros y f If Ef Iy X. subst y. assert (X : i = j) by (apply (disjoint i j p p' x'); auto). destruct (Sm X) as [<- <-]. subst j.
      apply N. f_equal. apply (same_run i p L E l E' l' e'); auto. rewrite Ex'. rewrite <- Ef. auto. }
    destruct (seg_planar x x' Vx Vx' (not_eq_sym (Sep x e Ie Ex Ix)) q Oe Oe') as [En En'].
    destruct (end_pt _ _ En) as (v & Qv & Ev). destruct (end_pt _ _ En') as (v' & Qv' & Ev').
    assert (v' = v) by (apply (q_is_fun q); auto). subst v'.
    destruct (classic_end E v) as [D|[D1 D2]].
    { apply nrm_ends in D. destruct D as [D|D]; rewrite D in Qv; [left|right]; auto. }
    exfalso. rewrite (rawf_ends x v), <- Ex in Ev. destruct (srun_inner E l Sr Ne e v Ie Ev D1 D2) as (e1 & e2 & I1 & I2 & S1 & S2).
    destruct (K e1 I1) as (y1 & J1 & E1 & _). destruct (K e2 I2) as (y2 & J2 & E2 & _).
    destruct (used_ok i p y1 Hp J1) as (V1 & U1 & _). destruct (used_ok i p y2 Hp J2) as (V2 & U2 & _).
    destruct (Two v y1 y2 x' V1 V2 Vx' U1 U2 Ux') as [X|[X|X]].
    - apply rawf_ends. rewrite <- E1. auto.
    - apply rawf_ends. rewrite <- E2. auto.
    - auto.
    - subst y2. apply (proj2 (proj2 (rawf_facts i p y1 Hp J1))). rewrite <- E1 at 2. rewrite S1, <- S2. congruence.
    - apply (Sep y2 e2 I2 E2 J2); auto.
    - apply (Sep y1 e1 I1 E1 J1); auto.
  Qed.

  Lemma line_between a v d : cross3 a v d = 0 -> a <> v -> v <> d -> ~ same_ray (vsub a v) (vsub d v) -> strictly_between a d v.
  Proof.
    clear. intros Z0 N1 N2 Ns. split; [unfold cross3 in *; lia|].
    assert (V0 : vx (vsub a v) (vsub d v) = 0) by (unfold cross3 in Z0; unfold vx, vsub; cbn [fst snd]; lia).
    destruct (pt_total a v) as [[L|L]|L]; [|contradiction|]; destruct (pt_total v d) as [[M|M]|M]; try contradiction; auto; exfalso; apply Ns; split; auto.
    - assert (D : 0 < dot (vsub v a) (vsub v d)) by (apply lex_dot; [unfold lexpos, vsub, pt_lt in *; cbn [fst snd]; lia|unfold lexpos, vsub, pt_lt in *; cbn [fst snd]; lia|unfold vx, vsub in *; cbn [fst snd] in *; lia]).
      unfold dot, vsub in *. cbn [fst snd] in *. lia.
    - apply lex_dot; auto; unfold lexpos, vsub, pt_lt in *; cbn [fst snd]; lia.
  Qed.
  (** a contour as found does not turn back *)
  Lemma raw_goes_on i p : P_ i p -> goes_on (p_raw p).
  Proof.
    intro Hp. destruct (steps_at visI ps St i p Hp) as (vi & vi' & t & Sf & _). pose proof (sf_dir _ _ _ _ Sf) as D. pose proof (sf_nd _ _ _ _ Sf) as Nd.
    assert (Ok : forall m n e e', nth_error (edges (p_raw p)) m = Some e -> nth_error (edges (p_raw p)) n = Some e' -> m <> n -> snd e = fst e' ->
      cross3 (fst e) (snd e) (snd e') = 0 -> strictly_between (fst e) (snd e') (snd e)).
    { intros m n e e' Em En Nmn Sh Z0. rewrite D, nth_error_map in Em, En. destruct (nth_error (p_used p) m) as [x|] eqn:Ux; [|discriminate]. destruct (nth_error (p_used p) n) as [y|] eqn:Uy; [|discriminate].
      cbn [option_map] in Em, En. injection Em as Em. injection En as En. change (rawf x = e) in Em. change (rawf y = e') in En.
      assert (Nxy : x <> y) by (intro X; apply Nmn; rewrite NoDup_nth_error in Nd; apply Nd; [apply nth_error_Some; congruence|congruence]).
      pose proof (nth_error_In _ _ Ux) as Ix. pose proof (nth_error_In _ _ Uy) as Iy. destruct (used_ok i p x Hp Ix) as (Vx & _). destruct (used_ok i p y Hp Iy) as (Vy & _).
      assert (Ns : seg x <> seg y) by (intro X; apply Nxy; apply (seg_inj g P); auto).
      destruct (rawf_facts i p x Hp Ix) as (_ & _ & Nx). destruct (rawf_facts i p y Hp Iy) as (_ & _ & Ny). rewrite Em in Nx. rewrite En in Ny.
      set (v := snd e) in *.
      assert (Ax : v = sa (seg x) \/ v = sb (seg x)) by (apply rawf_ends; rewrite Em; auto). assert (Ay : v = sa (seg y) \/ v = sb (seg y)) by (apply rawf_ends; rewrite En; auto).
      pose proof (dir_sep ges A v (seg x) (seg y) (seg_in g x Vx) (seg_in g y Vy) Ns) as Sp.
      assert (Ox : other v (seg x) = fst e).
      { unfold other, v in *. rewrite <- Em. pose proof (valid_lt x Vx) as L. pose proof (pt_lt_neq _ _ L) as Q. clear - Q. apply pt_eqb_neq in Q. unfold rawf. destruct (_ =? _); cbn [fst snd]; rewrite ?pt_eqb_refl, ?Q; auto. }
      assert (Oy : other v (seg y) = snd e').
      { unfold other. rewrite Sh. rewrite <- En. pose proof (valid_lt y Vy) as L. pose proof (pt_lt_neq _ _ L) as Q. clear - Q. apply pt_eqb_neq in Q. unfold rawf. destruct (_ =? _); cbn [fst snd]; rewrite ?pt_eqb_refl, ?Q; auto. }
      unfold dir in Sp. rewrite Ox, Oy in Sp. apply line_between; auto; [rewrite Sh; auto|]. apply Sp; unfold at_v; intuition congruence. }
    destruct (p_raw p) as [|p0 [|p1 c]] eqn:Er; [exact I|exact I|]. unfold goes_on. rewrite <- Er in *. set (n := length (p_raw p)).
    assert (Ln : (2 <= n)%nat) by (unfold n; rewrite Er; simpl; lia).
    assert (N0 : nth_error (p_raw p) 0 = Some p0 /\ nth_error (p_raw p) 1 = Some p1) by (rewrite Er; auto). destruct N0 as [N0 N1].
    assert (Wr : forall k a, nth_error (p_raw p ++ [p0; p1]) k = Some a -> (k < n + 2)%nat /\ nth_error (p_raw p) (k mod n) = Some a).
    { intros k a Ek. assert (Lk : (k < n + 2)%nat) by (replace (n + 2)%nat with (length (p_raw p ++ [p0; p1])) by (rewrite app_length; auto); apply nth_error_Some; congruence). split; auto.
      destruct (lt_dec k n) as [K|K]; [rewrite nth_error_app1 in Ek by auto; rewrite Nat.mod_small; auto|]. rewrite nth_error_app2 in Ek by (fold n; lia). fold n in Ek.
      assert (X : k = n \/ k = S n) by lia. destruct X as [-> | ->].
      - rewrite Nat.mod_same by lia. rewrite Nat.sub_diag in Ek. cbn [nth_error] in Ek. congruence.
      - replace (S n - n)%nat with 1%nat in Ek by lia. cbn [nth_error] in Ek. assert (M : (S n mod n = 1)%nat \/ n = 1%nat) by (replace (S n) with (1 + 1 * n)%nat by lia; rewrite Nat.mod_add by lia; left; apply Nat.mod_small; lia).
        destruct M as [M|M]; [rewrite M; congruence|lia]. }
    assert (Ed : forall k a b, nth_error (p_raw p ++ [p0; p1]) k = Some a -> nth_error (p_raw p ++ [p0; p1]) (S k) = Some b -> nth_error (edges (p_raw p)) (k mod n) = Some (a, b)).
    { intros k a b Ea Eb. destruct (Wr k a Ea) as [Lk Ma]. destruct (Wr (S k) b Eb) as [LSk Mb]. rewrite edges_nth, Ma.
      assert (Kn : (k mod n < n)%nat) by (apply Nat.mod_upper_bound; lia). pose proof (Nat.div_mod k n ltac:(lia)) as Dm.
      destruct (Nat.eq_dec (S (k mod n)) n) as [X|X].
      - assert (M : (S k mod n = 0)%nat) by (replace (S k) with (0 + (k / n + 1) * n)%nat by nia; rewrite Nat.mod_add, Nat.mod_0_l by lia; auto).
        rewrite X. rewrite (proj2 (nth_error_None (p_raw p) n)) by (unfold n; lia). rewrite M, N0 in Mb. rewrite Er. congruence.
      - assert (M : (S k mod n = S (k mod n))%nat) by (replace (S k) with (S (k mod n) + (k / n) * n)%nat by nia; rewrite Nat.mod_add, (Nat.mod_small (S _)) by lia; auto).
        rewrite <- M, Mb. auto. }
    apply fwd_nth. intros k a b d Ea Eb Ed0. apply (Ok (k mod n)%nat (S k mod n)%nat (a, b) (b, d)); auto.
    assert (Kn : (k mod n < n)%nat) by (apply Nat.mod_upper_bound; lia). pose proof (Nat.div_mod k n ltac:(lia)) as Dm.
    intro X. destruct (Nat.eq_dec (S (k mod n)) n) as [Y|Y].
    - replace (S k) with (0 + (k / n + 1) * n)%nat in X by nia. rewrite Nat.mod_add, Nat.mod_0_l in X by lia. lia.
    - replace (S k) with (S (k mod n) + (k / n) * n)%nat in X by nia. rewrite Nat.mod_add, (Nat.mod_small (S _)) in X by lia. lia.
  Qed.


  (** at most two links of the result at every point: a contour passes through a point once *)
  Lemma untouched_once i p : (forall v x y z, valid x -> valid y -> valid z -> not_visited visI x = true -> not_visited visI y = true -> not_visited visI z = true ->
      (v = sa (seg x) \/ v = sb (seg x)) -> (v = sa (seg y) \/ v = sb (seg y)) -> (v = sa (seg z) \/ v = sb (seg z)) -> x = y \/ y = z \/ x = z) ->
    P_ i p -> (3 <= length (p_raw p))%nat -> NoDup (p_raw p).
  Proof.
    intros Two Hp L3. destruct (steps_at visI ps St i p Hp) as (vi & vi' & t & Sf & _). pose proof (sf_dir _ _ _ _ Sf) as D. pose proof (sf_nd _ _ _ _ Sf) as Nd.
    assert (Lu : length (p_used p) = length (p_raw p)) by (rewrite <- edges_len, D, map_length; auto).
    assert (Ed : forall k v, nth_error (p_raw p) k = Some v -> exists x y m, nth_error (p_used p) k = Some x /\ nth_error (p_used p) m = Some y /\ (k = S m \/ k = 0 /\ S m = length (p_raw p))%nat /\
      In x (p_used p) /\ In y (p_used p) /\ (v = sa (seg x) \/ v = sb (seg x)) /\ (v = sa (seg y) \/ v = sb (seg y))).
    { intros k v E. assert (Lk : (k < length (p_raw p))%nat) by (apply nth_error_Some; congruence).
      set (m := match k with O => (length (p_raw p) - 1)%nat | S k' => k' end).
      assert (Lm : (m < length (p_raw p))%nat) by (unfold m; destruct k; lia).
      destruct (nth_error (edges (p_raw p)) k) as [e|] eqn:Ek; [|apply nth_error_None in Ek; rewrite edges_len in Ek; lia].
      destruct (nth_error (edges (p_raw p)) m) as [f|] eqn:Em; [|apply nth_error_None in Em; rewrite edges_len in Em; lia].
      pose proof (edge_fst _ _ _ Ek) as Fk. rewrite E in Fk. injection Fk as Fk.
      assert (Fm : snd f = v).
      { destruct (edge_snd _ _ _ Em) as [X|[X Y]]; unfold m in *; destruct k as [|k'].
        - assert (S (length (p_raw p) - 1) < length (p_raw p))%nat by (apply nth_error_Some; congruence). lia.
        - congruence.
        - congruence.
        - lia. }
      rewrite D, nth_error_map in Ek, Em. destruct (nth_error (p_used p) k) as [x|] eqn:Ux; [|discriminate]. destruct (nth_error (p_used p) m) as [y|] eqn:Uy; [|discriminate].
      cbn [option_map] in Ek, Em. injection Ek as Ek. injection Em as Em. change (rawf x = e) in Ek. change (rawf y = f) in Em.
      exists x, y, m. split; auto. split; auto. split; [unfold m; destruct k; lia|]. split; [eapply nth_error_In; eauto|]. split; [eapply nth_error_In; eauto|].
      split; apply rawf_ends; [rewrite Ek|rewrite Em]; auto. }
    apply NoDup_nth_error. intros k k' Lk E. destruct (Nat.eq_dec k k') as [|N]; auto. exfalso.
    destruct (nth_error (p_raw p) k) as [v|] eqn:Ev; [|apply nth_error_None in Ev; lia].
    destruct (Ed k v Ev) as (x & y & m & Ux & Uy & M & Ix & Iy & Tx & Ty). destruct (Ed k' v (eq_sym E)) as (x' & y' & m' & Ux' & Uy' & M' & Ix' & Iy' & Tx' & Ty').
    assert (Lk' : (k' < length (p_raw p))%nat) by (apply nth_error_Some; congruence).
    assert (Dist : forall a b u w, nth_error (p_used p) a = Some u -> nth_error (p_used p) b = Some w -> u = w -> a = b).
    { intros a b u w Ha Hb ->. rewrite NoDup_nth_error in Nd. apply Nd; [apply nth_error_Some; congruence|congruence]. }
    destruct (used_ok i p x Hp Ix) as (Vx & Wx & _). destruct (used_ok i p y Hp Iy) as (Vy & Wy & _). destruct (used_ok i p x' Hp Ix') as (Vx' & Wx' & _). destruct (used_ok i p y' Hp Iy') as (Vy' & Wy' & _).
    destruct (Two v x x' y Vx Vx' Vy Wx Wx' Wy Tx Tx' Ty) as [X|[X|X]].
    - apply N. eapply Dist; eauto.
    - assert (k' = m) by (eapply Dist; eauto). subst m.
      destruct (Two v x x' y' Vx Vx' Vy' Wx Wx' Wy' Tx Tx' Ty') as [Y|[Y|Y]].
      + apply N. eapply Dist; eauto.
      + assert (k' = m') by (eapply Dist; eauto). lia.
      + assert (k = m') by (eapply Dist; eauto). lia.
    - assert (k = m) by (eapply Dist; eauto). lia.
  Qed.

  Hypothesis On2 : clockwise = true -> forall i p, P_ i p -> p_hole p = true -> second_once (p_raw p).
  (** the edges that are left meet only in common ends *)
  Hypothesis Pc : forall i j p p' E E', P_ i p -> P_ j p' -> In E (edges (p_contour p)) -> In E' (edges (p_contour p')) -> nrm E <> nrm E' ->
    forall q, on_seg (nrm E) q -> on_seg (nrm E') q -> is_end (nrm E) q /\ is_end (nrm E') q.
  Lemma end_eq s p : is_end s (qx p, qy p) -> p = sa s \/ p = sb s.
  Proof.
    assert (K : forall w, q_is (qx p, qy p) w -> p = w).
    { intros w [X Y]. cbn [fst snd] in *. unfold qx, qy in *. apply (proj1 (inject_Z_injective _ _)) in X. apply (proj1 (inject_Z_injective _ _)) in Y. destruct p as [p1 p2], w as [w1 w2]; cbn [px py] in *; congruence. }
    intros [H|H]; apply K in H; auto.
  Qed.
  Lemma big_same i j p p' E E' x : P_ i p -> P_ j p' -> In E (edges (p_contour p)) -> In E' (edges (p_contour p')) -> valid x -> sub_of (nrm E) (seg x) -> sub_of (nrm E') (seg x) -> nrm E = nrm E'.
  Proof.
    intros Hp Hp' I I' V S S'. destruct (xseg_eq_dec (nrm E) (nrm E')) as [|N]; auto. exfalso. apply N.
    pose proof (nrm_wf E (big_ne i p E Hp I)) as W. pose proof (nrm_wf E' (big_ne j p' E' Hp' I')) as W'. pose proof (valid_lt x V) as Wx.
    destruct (sub_end _ _ Wx W S) as [O1 O2]. destruct (sub_end _ _ Wx W' S') as [O1' O2'].
    destruct (Pc i j p p' E E' Hp Hp' I I' N _ O1 O1') as [X1 X1']. destruct (Pc i j p p' E E' Hp Hp' I I' N _ O2 O2') as [X2 X2'].
    assert (K : forall s, pt_lt (sa s) (sb s) -> is_end s (qx (sa (seg x)), qy (sa (seg x))) -> is_end s (qx (sb (seg x)), qy (sb (seg x))) -> s = seg x).
    { intros s Ws H1 H2. apply end_eq in H1, H2. destruct s as [s1 s2], (seg x) as [x1 x2]. cbn [sa sb] in *.
      assert (Irr : forall a, ~ pt_lt a a) by apply pt_lt_irrefl.
      destruct H1 as [->| ->], H2 as [->| ->]; auto; exfalso; unfold pt_lt in *; lia. }
    rewrite (K _ W X1 X2), (K _ W' X1' X2'). auto.
  Qed.
  (** the segments of the thinned contours *)
  Definition keepbig (xm xM : Z) (E : pt * pt) : Prop := kE E = 1 /\ px (sa (nrm E)) < px (sb (nrm E)) /\ xm < px (sb (nrm E)) /\ px (sa (nrm E)) <= xM.
  Lemma bsegs_perm h xm xM ix i p : P_ i p -> exists f, Permutation (segsof h xm xM ix (p_contour p)) (flat_map f (edges (p_contour p))) /\
    forall E, In E (edges (p_contour p)) -> (keepbig xm xM E /\ f E = [IdS h ix (nrm E)]) \/ (~ keepbig xm xM E /\ f E = []).
  Proof.
    intro Hp. exists (fun E => put_id h ix xm xM (if clockwise then E else BindSweep.swap E)). split.
    - unfold segsof. assert (X : Permutation (edges (if clockwise then p_contour p else rev (p_contour p))) (map (fun E => if clockwise then E else BindSweep.swap E) (edges (p_contour p)))).
      { destruct clockwise; [rewrite map_id; auto|apply edges_rev]. }
      rewrite (Permutation_flat_map _ X). rewrite flat_map_concat_map, map_map, <- flat_map_concat_map. reflexivity.
    - intros E I. pose proof (nrm_wf E (big_ne i p E Hp I)) as W. unfold put_id, keepbig, kE, main_dir. unfold nrm, pt_lt in *.
      destruct (up E) eqn:U, clockwise; cbn [fst snd sa sb BindSweep.swap] in *; unfold BindSweep.swap; cbn [fst snd].
      + right. split; [lia|]. destruct (Z.ltb_spec (px (snd E)) (px (fst E))); [lia|auto].
      + destruct (Z.ltb_spec (px (fst E)) (px (snd E))), (Z.ltb_spec xm (px (snd E))), (Z.leb_spec (px (fst E)) xM); cbn [andb]; try (right; split; [lia|reflexivity]). left. split; auto.
      + destruct (Z.ltb_spec (px (snd E)) (px (fst E))), (Z.ltb_spec xm (px (fst E))), (Z.leb_spec (px (snd E)) xM); cbn [andb]; try (right; split; [lia|reflexivity]). left. split; auto.
      + right. split; [lia|]. destruct (Z.ltb_spec (px (fst E)) (px (snd E))); [lia|auto].
  Qed.
  Lemma bsegs_in h xm xM ix i p y : P_ i p -> (In y (segsof h xm xM ix (p_contour p)) <-> exists E, In E (edges (p_contour p)) /\ keepbig xm xM E /\ y = IdS h ix (nrm E)).
  Proof.
    intro Hp. destruct (bsegs_perm h xm xM ix i p Hp) as (f & Pf & Hf). split.
    - intro I. apply (Permutation_in _ Pf) in I. apply in_flat_map in I as (E & IE & I). exists E. split; auto.
      destruct (Hf E IE) as [[K Q]|[K Q]]; rewrite Q in I; [destruct I as [<-|[]]; auto|destruct I].
    - intros (E & IE & K & ->). apply (Permutation_in _ (Permutation_sym Pf)). apply in_flat_map. exists E. split; auto.
      destruct (Hf E IE) as [[_ Q]|[N _]]; [rewrite Q; left; auto|contradiction].
  Qed.
  Lemma bsegs_nd h xm xM ix i p : P_ i p -> NoDup (map id_seg (segsof h xm xM ix (p_contour p))).
  Proof.
    intro Hp. destruct (bsegs_perm h xm xM ix i p Hp) as (f & Pf & Hf). pose proof (big_nd i p Hp) as N.
    eapply Permutation_NoDup; [apply Permutation_sym, Permutation_map, Pf|]. revert N Hf. generalize (edges (p_contour p)) as l. clear. induction l as [|E l IH]; intros N Hf; [constructor|].
    cbn [map] in N. inversion N as [|? ? N1 N2]; subst. cbn [flat_map]. assert (IHl := IH N2 (fun F I => Hf F (or_intror I))).
    destruct (Hf E (or_introl eq_refl)) as [[_ Q]|[_ Q]]; rewrite Q; auto. cbn [app map id_seg]. constructor; auto.
    intro I. apply N1. apply in_map_iff in I as (y & Ey & I). apply in_flat_map in I as (F & IF & I). destruct (Hf F (or_intror IF)) as [[_ R]|[_ R]]; rewrite R in I; [|destruct I].
    destruct I as [<-|[]]. cbn [id_seg] in Ey. rewrite <- Ey. apply in_map; auto.
  Qed.
  Lemma bsegs_some h xm xM : id_of_contours h xm xM clockwise (map p_contour (filter (isel h) ps)) = Some (segsall h xm xM).
  Proof.
    apply id_contours_some. intros c I. apply in_map_iff in I as (p & <- & I). apply filter_In in I as [I _]. apply In_nth_error in I as (i & Hi).
    destruct (Th i p Hi) as (_ & L & _). intro E. rewrite E in L. simpl in L. lia.
  Qed.
  Lemma enum_big h ix c : In (ix, c) (enum (map p_contour (filter (isel h) ps))) <-> exists i p, nth_error (sel h) ix = Some (i, p) /\ c = p_contour p.
  Proof.
    rewrite enum_nth, nth_error_map. split.
    - destruct (nth_error (filter (isel h) ps) ix) as [p|] eqn:E; [|discriminate]. simpl. intro H. injection H as <-. destruct (sel_of h ix p E) as (i & Hi). exists i, p. auto.
    - intros (i & p & H & ->). destruct (sel_at h ix i p H) as (Hp & _ & ->). auto.
  Qed.
  Lemma ball_in h xm xM y : In y (segsall h xm xM) <-> exists i p E, nth_error (sel h) (id_ix y) = Some (i, p) /\ id_hole y = h /\ In E (edges (p_contour p)) /\ keepbig xm xM E /\ id_seg y = nrm E.
  Proof.
    unfold segsall. rewrite in_flat_map. split.
    - intros ([ix c] & Ic & Iy). cbn [fst snd] in Iy. apply enum_big in Ic as (i & p & H & ->). destruct (sel_at h ix i p H) as (Hp & _).
      apply (bsegs_in h xm xM ix i p y Hp) in Iy as (x & Ix & K & ->). exists i, p, x. cbn [id_ix id_hole id_seg]. auto.
    - intros (i & p & x & H & Eh & Ix & K & Es). exists (id_ix y, p_contour p). split; [apply enum_big; eauto|]. cbn [fst snd]. destruct (sel_at h _ i p H) as (Hp & _).
      apply (bsegs_in h xm xM _ i p y Hp). exists x. split; auto. split; auto. destruct y; simpl in *; congruence.
  Qed.
  Lemma ball_owner h h' xm xM y y' : In y (segsall h xm xM) -> In y' (segsall h' xm xM) -> id_seg y = id_seg y' -> h = h' /\ id_ix y = id_ix y'.
  Proof.
    intros I I' E. apply ball_in in I as (i & p & x & H & _ & Ix & _ & Es). apply ball_in in I' as (i' & p' & x' & H' & _ & Ix' & _ & Es').
    destruct (sel_at _ _ _ _ H) as (Hp & Eh & _). destruct (sel_at _ _ _ _ H') as (Hp' & Eh' & _).
    assert (i = i') by (apply (big_owner i i' p p' x x'); auto; congruence). subst i'. assert (p' = p) by (unfold at_ in *; congruence). subst p'.
    assert (Ehh : h = h') by congruence. split; [exact Ehh|]. rewrite <- Ehh in H'. apply (sel_fun h _ _ i p p); auto.
  Qed.
  Lemma ball_nd xm xM : NoDup (map id_seg (segsall false xm xM ++ segsall true xm xM)).
  Proof.
    assert (One : forall h, NoDup (map id_seg (segsall h xm xM))).
    { intro h. unfold segsall. rewrite map_flat_map. apply NoDup_flat_map.
      - eapply NoDup_map_inv. rewrite enum_fst. apply seq_NoDup.
      - intros [ix c] I. cbn [fst snd]. apply enum_big in I as (i & p & H & ->). apply (bsegs_nd h xm xM ix i p). apply (sel_at h ix i p H).
      - intros [ix c] [ix' c'] z I I' Iz Iz'. cbn [fst snd] in *.
        assert (Q : forall jx d, In (jx, d) (enum (map p_contour (filter (isel h) ps))) -> In z (map id_seg (segsof h xm xM jx d)) -> exists y, In y (segsall h xm xM) /\ id_seg y = z /\ id_ix y = jx).
        { intros jx d J Jz. apply in_map_iff in Jz as (y & Ey & Iy). exists y. split; [unfold segsall; apply in_flat_map; exists (jx, d); auto|]. split; auto.
          apply enum_big in J as (i & p & H & ->). destruct (sel_at h jx i p H) as (Hp & _). apply (bsegs_in h xm xM jx i p y Hp) in Iy as (x & _ & _ & ->). auto. }
        destruct (Q ix c I Iz) as (y & Jy & Ey & Xy). destruct (Q ix' c' I' Iz') as (y' & Jy' & Ey' & Xy').
        destruct (ball_owner h h xm xM y y' Jy Jy') as [_ X]; [congruence|]. assert (ix = ix') by congruence. clear X Xy Xy'. subst ix'.
        f_equal. apply enum_nth in I, I'. congruence. }
    rewrite map_app. apply NoDup_join; auto. intros z I I'. apply in_map_iff in I as (y & Ey & Iy). apply in_map_iff in I' as (y' & Ey' & Iy').
    destruct (ball_owner false true xm xM y y' Iy Iy') as [X _]; congruence.
  Qed.

  (** the anchor of a thinned hole *)
  Lemma min_point_spec : forall l i ix a k m, min_point i l ix a = (k, m) ->
    ((k = ix /\ m = a) \/ ((i <= k)%nat /\ nth_error l (k - i) = Some m)) /\ ~ pt_lt a m /\ forall p, In p l -> ~ pt_lt p m.
  Proof.
    clear. induction l as [|q l IH]; intros i ix a k m H; cbn [min_point] in H.
    - injection H as <- <-. split; auto. split; [apply pt_lt_irrefl|intros p []].
    - assert (Sh : forall k', (S i <= k')%nat -> (k' - i)%nat = S (k' - S i)) by (intros; lia).
      destruct (pt_ltb q a) eqn:L; destruct (IH _ _ _ _ _ H) as (D & N & Al).
      + apply pt_ltb_lt in L. split; [right|split].
        * destruct D as [[-> ->]|[Li E]]; [split; [lia|]; rewrite Nat.sub_diag; auto|]. split; [lia|]. rewrite Sh by lia. auto.
        * intro X. apply N. eapply pt_lt_trans; eauto.
        * intros p [<-|I]; auto.
      + apply pt_ltb_ge in L. split; [|split; auto].
        * destruct D as [D|[Li E]]; auto. right. split; [lia|]. rewrite Sh by lia. auto.
        * intros p [<-|I]; auto. intro X. apply N. destruct (pt_total a q) as [[Y|Y]|Y]; [eapply pt_lt_trans; eauto|subst; auto|contradiction].
  Qed.
  Lemma edge_next (c : list pt) k a : nth_error c k = Some a -> exists b, nth_error c ((k + 1) mod length c) = Some b /\ nth_error (edges c) k = Some (a, b).
  Proof.
    clear. intro H. assert (L : (k < length c)%nat) by (apply nth_error_Some; congruence). rewrite edges_nth, H. destruct (nth_error c (S k)) as [b|] eqn:E.
    - exists b. split; auto. assert (S k < length c)%nat by (apply nth_error_Some; congruence). rewrite Nat.mod_small by lia. rewrite Nat.add_1_r. auto.
    - apply nth_error_None in E. assert (length c = (k + 1)%nat) by lia. rewrite H0, Nat.mod_same by lia. destruct c as [|f c]; [destruct k; discriminate H|]. exists f. auto.
  Qed.
  Lemma edge_prev (c : list pt) k a : nth_error c k = Some a -> exists b, nth_error c ((k + length c - 1) mod length c) = Some b /\ nth_error (edges c) ((k + length c - 1) mod length c) = Some (b, a).
  Proof.
    clear. intro H. assert (L : (k < length c)%nat) by (apply nth_error_Some; congruence). set (k' := ((k + length c - 1) mod length c)%nat).
    assert (L' : (k' < length c)%nat) by (apply Nat.mod_upper_bound; lia). destruct (nth_error c k') as [b|] eqn:E; [|apply nth_error_None in E; lia].
    exists b. split; auto. destruct (edge_next c k' b E) as (a' & Ha & He). rewrite He. f_equal. f_equal.
    assert (X : ((k' + 1) mod length c)%nat = k).
    { unfold k'. rewrite Nat.add_mod_idemp_l by lia. replace (k + length c - 1 + 1)%nat with (k + 1 * length c)%nat by lia. rewrite Nat.mod_add by lia. apply Nat.mod_small; auto. }
    rewrite X in Ha. congruence.
  Qed.
  Lemma edge_in_pts (c : list pt) E : In E (edges c) -> In (fst E) c /\ In (snd E) c.
  Proof.
    clear. intro I. apply In_nth_error in I as (k & H). split; [apply (nth_error_In _ k); apply edge_fst; auto|]. destruct (edge_snd c k E H) as [X|[_ X]]; eapply nth_error_In; eauto.
  Qed.
  Lemma sa_or E : (sa (nrm E) = fst E /\ sb (nrm E) = snd E) \/ (sa (nrm E) = snd E /\ sb (nrm E) = fst E).
  Proof. clear. unfold nrm. destruct (up E); auto. Qed.

  Lemma thin_anchor h ph : P_ h ph -> p_hole ph = true -> exists t u U, hanchor ph t u /\ In U (edges (p_contour ph)) /\ part U u /\ sa (nrm U) = sa (seg u) /\
    forall dbg, exists chg, anchor_of dbg clockwise ph = Some (nrm U, chg).
  Proof.
    intros Hh Ho. destruct (Th h ph Hh) as (L3 & L3' & Tn & Um). destruct (hole_anchor h ph Hh Ho L3) as (t & u & Ha & Eu); [intro; eapply On2; eauto|].
    set (a := sa (seg t)) in *. pose proof (ha_sa _ _ _ Ha) as Sau. fold a in Sau. set (c := p_contour ph) in *.
    assert (Low : forall E, In E (edges c) -> ~ pt_lt (sa (nrm E)) a).
    { intros E I X. destruct (big_start h ph E Hh I) as (y & Iy & _ & Ey). apply (ha_min _ _ _ Ha y Iy). rewrite Ey. auto. }
    assert (Eqa : forall E, In E (edges c) -> ~ pt_lt a (sa (nrm E)) -> sa (nrm E) = a).
    { intros E I X. pose proof (Low E I). destruct (pt_total (sa (nrm E)) a) as [[Y|Y]|Y]; auto; contradiction. }
    destruct (big_link h ph u Hh (ha_u _ _ _ Ha)) as (U & IU & PU). destruct (big_link h ph t Hh (ha_t _ _ _ Ha)) as (T & IT & PT).
    assert (AU : sa (nrm U) = a) by (apply Eqa; auto; rewrite <- Sau; apply PU). assert (AT : sa (nrm T) = a) by (apply Eqa; auto; apply PT).
    exists t, u, U. split; auto. split; auto. split; auto. split; [congruence|].
    destruct (used_ok h ph u Hh (ha_u _ _ _ Ha)) as (Vu & _ & _). destruct (used_ok h ph t Hh (ha_t _ _ _ Ha)) as (Vt & _ & _).
    assert (At : forall E, In E (edges c) -> sa (nrm E) = a -> nrm E = nrm T \/ nrm E = nrm U).
    { intros E I X. destruct (big_start h ph E Hh I) as (y & Iy & Py & Ey). destruct (ha_two _ _ _ Ha y Iy) as [->| ->]; [fold a; congruence|left|right].
      - apply (big_same h h ph ph E T t); auto; [apply Py|apply PT].
      - apply (big_same h h ph ph E U u); auto; [apply Py|apply PU]. }
    destruct (p_mod ph) eqn:Em.
    2:{ (* unchanged *)
      specialize (Um eq_refl). assert (Q : nrm U = seg u).
      { destruct (steps_at visI ps St h ph Hh) as (vi & vi' & s & Sf & _). pose proof (sf_dir _ _ _ _ Sf) as Ed. change (edges (p_raw ph) = map rawf (p_used ph)) in Ed.
        fold c in IU. rewrite Um, Ed in IU. apply in_map_iff in IU as (y & <- & Iy). destruct (rawf_facts h ph y Hh Iy) as (F1 & F2 & _). rewrite F1 in *.
        destruct (ha_two _ _ _ Ha y Iy AU) as [->| ->]; auto. exfalso. destruct PU as [_ K]. rewrite F2, (ha_kt _ _ _ Ha), (ha_ku _ _ _ Ha) in K. discriminate. }
      intro dbg. exists false. rewrite Q. apply Eu; auto. }
    (* changed *)
    assert (Lb : left_bottom_segment c = Some (nrm U)).
    { unfold left_bottom_segment. destruct c as [|f rr] eqn:Ec; [simpl in L3'; lia|]. rewrite <- Ec in *. destruct (min_point 1 rr 0 f) as [k m] eqn:Mp.
      destruct (min_point_spec _ _ _ _ _ _ Mp) as (D & N0 & Nl).
      assert (Nk : nth_error c k = Some m). { rewrite Ec. destruct D as [[-> ->]|[Lk E]]; auto. destruct k; [lia|]. cbn [nth_error]. rewrite <- E. f_equal. lia. }
      assert (Nm : forall p, In p c -> ~ pt_lt p m) by (intros p I; rewrite Ec in I; destruct I as [<-|I]; auto).
      destruct (edge_next c k m Nk) as (b0 & B0 & E0). destruct (edge_prev c k m Nk) as (b1 & B1 & E1). rewrite B0, B1.
      assert (I0 : In (m, b0) (edges c)) by (eapply nth_error_In; eauto). assert (I1 : In (b1, m) (edges c)) by (eapply nth_error_In; eauto).
      assert (Ma : m = a).
      { assert (Ia : In a c). { destruct (edge_in_pts c U IU). destruct (sa_or U) as [[X _]|[X _]]; rewrite AU in X; rewrite X; auto. }
        pose proof (Nm a Ia) as N1. destruct (pt_total m a) as [[X|X]|X]; auto; [|contradiction]. exfalso. apply (Low _ I0). pose proof (nrm_wf _ (big_ne h ph _ Hh I0)) as W.
        destruct (sa_or (m, b0)) as [[Y1 Y2]|[Y1 Y2]]; cbn [fst snd] in *; rewrite Y1 in *; auto. rewrite Y2 in W. eapply pt_lt_trans; eauto. }
      rewrite Ma in *. clear Ma.
      assert (S0 : nrm (a, b0) = XS a b0).
      { pose proof (Low _ I0) as L0. pose proof (nrm_wf _ (big_ne h ph _ Hh I0)) as W. destruct (sa_or (a, b0)) as [[Y1 Y2]|[Y1 Y2]]; cbn [fst snd] in *; [destruct (nrm (a, b0)) as [z1 z2]; cbn [sa sb] in *; congruence|].
        rewrite Y1, Y2 in W. rewrite Y1 in L0. contradiction. }
      assert (S1 : nrm (b1, a) = XS a b1).
      { pose proof (Low _ I1) as L0. pose proof (nrm_wf _ (big_ne h ph _ Hh I1)) as W. destruct (sa_or (b1, a)) as [[Y1 Y2]|[Y1 Y2]]; cbn [fst snd] in *; [|destruct (nrm (b1, a)) as [z1 z2]; cbn [sa sb] in *; congruence].
        rewrite Y1, Y2 in W. rewrite Y1 in L0. contradiction. }
      assert (Nd : nrm (a, b0) <> nrm (b1, a)).
      { intro X. pose proof (proj1 (NoDup_nth_error _) (big_nd h ph Hh)) as Ni. fold c in Ni. specialize (Ni k ((k + length c - 1) mod length c)%nat).
        assert (Lk : (k < length c)%nat) by (apply nth_error_Some; congruence). assert (Lc : (3 <= length c)%nat) by exact L3'.
        rewrite map_length, edges_len in Ni. specialize (Ni Lk). rewrite !nth_error_map, E0, E1 in Ni. cbn [option_map] in Ni. rewrite X in Ni. specialize (Ni eq_refl).
        destruct k as [|k]; [replace (0 + length c - 1)%nat with (length c - 1)%nat in Ni by lia; rewrite Nat.mod_small in Ni by lia; lia|].
        replace (S k + length c - 1)%nat with (k + 1 * length c)%nat in Ni by lia. rewrite Nat.mod_add, Nat.mod_small in Ni by lia. lia. }
      assert (TU : vx (vsub (sb (nrm T)) a) (vsub (sb (nrm U)) a) < 0).
      { pose proof (ha_below _ _ _ Ha) as B. fold a in B.
        destruct (sub_vec (nrm T) (seg t) (valid_lt t Vt) (nrm_wf T (big_ne h ph T Hh IT)) (proj1 PT)) as (m1 & n1 & M1 & N1 & X1 & X2).
        destruct (sub_vec (nrm U) (seg u) (valid_lt u Vu) (nrm_wf U (big_ne h ph U Hh IU)) (proj1 PU)) as (m2 & n2 & M2 & N2 & Y1 & Y2).
        fold a in X1, X2. rewrite AT in X1, X2. rewrite AU, Sau in Y1, Y2. unfold vx, vsub in *. cbn [fst snd] in *.
        assert (Q : (m1 * m2) * ((px (sb (seg t)) - px a) * (py (sb (seg u)) - py a) - (py (sb (seg t)) - py a) * (px (sb (seg u)) - px a)) =
          (n1 * n2) * ((px (sb (nrm T)) - px a) * (py (sb (nrm U)) - py a) - (py (sb (nrm T)) - py a) * (px (sb (nrm U)) - px a))).
        { transitivity ((m1 * (px (sb (seg t)) - px a)) * (m2 * (py (sb (seg u)) - py a)) - (m1 * (py (sb (seg t)) - py a)) * (m2 * (px (sb (seg u)) - px a))); [ring|]. rewrite X1, X2, Y1, Y2. ring. }
        assert (K1 : 0 < m1 * m2) by nia. assert (K2 : 0 < n1 * n2) by nia. nia. }
      destruct (At _ I0) as [Q0|Q0]; [rewrite S0; auto| |]; (destruct (At _ I1) as [Q1|Q1]; [rewrite S1; auto| |]); try congruence; rewrite S0 in Q0; rewrite S1 in Q1;
        unfold is_under_segment; cbn [sa sb]; rewrite (proj2 (pt_cmp_eq a a) eq_refl); unfold is_clockwise; rewrite <- Q0, <- Q1 in TU; cbn [sb] in TU; unfold vx, vsub in TU; cbn [fst snd] in TU.
      - destruct (Z.ltb_spec (cross3 a b1 b0) 0) as [Y|Y]; [unfold cross3 in Y; lia|]. congruence.
      - destruct (Z.ltb_spec (cross3 a b1 b0) 0) as [Y|Y]; [|unfold cross3 in Y; lia]. congruence. }
    intro dbg. unfold anchor_of. fold c. rewrite Lb, Em.
    assert (Xe : forall s v, xseg_eqb s v = true -> v = s).
    { clear. intros [s1 s2] [v1 v2] H. unfold xseg_eqb in H. cbn [sa sb] in H. apply andb_true_iff in H as [H1 H2]. apply pt_eqb_eq in H1, H2. congruence. }
    assert (Ln : (3 <= length c)%nat) by exact L3'.
    assert (Nt : forall k, (k < length c)%nat -> exists x, nth_error c k = Some x) by (intros k Lk; destruct (nth_error c k) eqn:X; eauto; apply nth_error_None in X; lia).
    destruct clockwise.
    - destruct (Nt 1%nat) as (x & X1); [lia|]. destruct (Nt 2%nat) as (y & Y1); [lia|]. rewrite X1, Y1. destruct (xseg_eqb (nrm U) (XS x y)) eqn:Q; [apply Xe in Q; rewrite Q|]; eauto.
    - destruct (Nt 0%nat) as (x & X1); [lia|]. destruct (Nt (length c - 1)%nat) as (y & Y1); [lia|]. rewrite X1, Y1. destruct (xseg_eqb (nrm U) (XS x y)) eqn:Q; [apply Xe in Q; rewrite Q|]; eauto.
  Qed.
  Lemma anchors_any dbg : forall l ix, (forall p, In p l -> p_valid p = true) ->
    (forall p, In p l -> p_hole p = true -> exists s chg, anchor_of dbg clockwise p = Some (s, chg)) ->
    exists an srt, anchors_of dbg clockwise ix l = Some (an, srt) /\ length an = length (filter (isel true) l) /\
      forall k a, nth_error an k = Some a -> id_ix a = (ix + k)%nat /\ exists p chg, nth_error (filter (isel true) l) k = Some p /\ anchor_of dbg clockwise p = Some (id_seg a, chg).
  Proof.
    induction l as [|p l IH]; intros ix V H; cbn [anchors_of filter].
    - exists [], true. split; auto. split; auto. intros [|k] a E; discriminate.
    - assert (Vp : p_valid p = true) by (apply V; left; auto). assert (Ei : isel true p = p_hole p) by (unfold isel; rewrite Vp; auto). rewrite Ei, Vp. cbn [andb].
      destruct (p_hole p) eqn:Hp.
      + destruct (IH (S ix)) as (an & srt & E & L & A0); [intros; apply V; right; auto|intros; apply H; auto; right; auto|].
        destruct (H p (or_introl eq_refl) Hp) as (s & chg & Es). rewrite Es, E. exists (IdS true ix s :: an), (negb chg && srt). split; auto. split; [simpl; lia|].
        intros [|k] a Ek; cbn [nth_error] in *.
        * injection Ek as <-. cbn [id_ix id_seg]. split; [lia|]. exists p, chg. auto.
        * destruct (A0 k a Ek) as (Ix & q & Q). split; [lia|]. eauto.
      + destruct (IH ix) as (an & srt & E & L & A0); [intros; apply V; right; auto|intros; apply H; auto; right; auto|]. exists an, srt. auto.
  Qed.
  Lemma isort_a_sorted l : StronglySorted (fun s t => a_leb s t = true) (isort a_leb l).
  Proof.
    clear. apply (isort_sorted_on a_leb (fun _ => True)).
    - intros x y _ _. unfold a_leb, pt_leb, pt_ltb, pt_eqb. lia.
    - intros x y z _ _ _. unfold a_leb, pt_leb, pt_ltb, pt_eqb. lia.
    - apply Forall_forall. auto.
  Qed.
  (** [under_start] for any two segments that meet only in common ends *)
  Lemma big_under e u : (forall q, on_seg e q -> on_seg u q -> is_end e q /\ is_end u q) -> spans e (qx (sa u)) = true -> nonvert u -> lt_at (qx (sa u)) e u ->
    pt_lt (sa e) (sa u) \/ (sa e = sa u /\ 0 < vx (vsub (sb e) (sa e)) (vsub (sb u) (sa u))).
  Proof.
    clear. intros HP Sp Nu L. pose proof (spans_own _ Nu) as Su. destruct (pt_cmp (sa e) (sa u)) eqn:E.
    - apply pt_cmp_eq in E. right. split; auto. apply (same_start e u (qx (sa u)) Sp Su E HP) in L. unfold cross3 in L. unfold vx, vsub. cbn [fst snd]. rewrite <- E. lia.
    - apply pt_cmp_lt in E. left; auto.
    - apply pt_cmp_gt in E. exfalso. apply spans_iff in Sp as [S1 S2].
      assert (X : px (sa e) <= px (sa u)) by (apply qz_le; exact S1). unfold pt_lt in E.
      assert (Ex : px (sa e) = px (sa u)) by lia. assert (Ey : py (sa u) < py (sa e)) by lia.
      assert (Qe : (qx (sa u) == qx (sa e))%Q) by (unfold qx; rewrite Ex; reflexivity).
      assert (He : (height e (qx (sa u)) == qy (sa e))%Q) by (rewrite Qe; apply height_at_a).
      pose proof (height_at_a u) as Hu. pose proof (proj2 (qz_lt _ _) Ey) as Hy. unfold lt_at in L. unfold qy in *. lra.
  Qed.
  Lemma bind_thinned dbg : exists out par, join_pieces dbg = Some out /\ assembled (outer_contours ps) (hole_contours ps) par out /\
    forall ix k, nth_error par ix = Some k -> belongs ix k.
  Proof.
    destruct (anchors_any dbg ps 0) as (an0 & srt & Ea & La & An0).
    { intros p I. apply In_nth_error in I as (i & Hi). apply (at_valid i p Hi). }
    { intros p I Hp. apply In_nth_error in I as (i & Hi). destruct (thin_anchor i p Hi Hp) as (t & u & U & _ & _ & _ & _ & E). exists (nrm U). apply E. }
    assert (An1 : forall ix a, nth_error an0 ix = Some a -> id_ix a = ix /\ exists h ph t u U, nth_error (sel true) ix = Some (h, ph) /\ hanchor ph t u /\
      In U (edges (p_contour ph)) /\ part U u /\ sa (nrm U) = sa (seg u) /\ id_seg a = nrm U).
    { intros ix a E. destruct (An0 ix a E) as (Ix & p & chg & Np & Ap). split; [lia|]. destruct (sel_of true ix p Np) as (h & Hh). destruct (sel_at _ _ _ _ Hh) as (Hp & Ho & _).
      destruct (thin_anchor h p Hp Ho) as (t & u & U & Ha & IU & PU & AU & Eu). exists h, p, t, u, U. do 5 (split; auto). destruct (Eu dbg) as (chg' & E'). rewrite Ap in E'. congruence. }
    assert (Sa0 : StronglySorted (fun s t => a_leb s t = true) an0).
    { apply SS_nth. intros i j a b L Ei Ej. destruct (An1 i a Ei) as (_ & h & ph & t & u & U & Hh & Ha & _ & _ & AU & Es). destruct (An1 j b Ej) as (_ & h' & ph' & t' & u' & U' & Hh' & Ha' & _ & _ & AU' & Es').
      unfold a_leb. rewrite Es, Es', AU, AU'. apply pt_leb_le. eapply (start_mono h h' ph ph'); eauto; [eapply sel_lt; eauto|apply (sel_at _ _ _ _ Hh)|apply (sel_at _ _ _ _ Hh')]. }
    unfold join_pieces. rewrite Ea, holes_sel, outers_sel. clear Ea An0.
    set (an := if srt then an0 else isort a_leb an0).
    assert (Pan : Permutation an an0) by (unfold an; destruct srt; auto; apply isort_perm).
    assert (Sa : StronglySorted (fun s t => a_leb s t = true) an) by (unfold an; destruct srt; auto; apply isort_a_sorted).
    assert (Lan : length an = length an0) by (apply Permutation_length; auto). rewrite <- Lan in La.
    assert (An : forall a, In a an -> nth_error an0 (id_ix a) = Some a /\ exists h ph t u U, nth_error (sel true) (id_ix a) = Some (h, ph) /\ hanchor ph t u /\
      In U (edges (p_contour ph)) /\ part U u /\ sa (nrm U) = sa (seg u) /\ id_seg a = nrm U).
    { intros a I. apply (Permutation_in _ Pan) in I. apply In_nth_error in I as (ix & E). destruct (An1 ix a E) as (<- & K). auto. }
    assert (Lh : length (map p_contour (filter (isel true) ps)) = length an) by (rewrite map_length; auto).
    destruct (map p_contour (filter (isel true) ps)) as [|h0 hs] eqn:Eh.
    { (* no holes *)
      exists (map (fun c => [c]) (map p_contour (filter (isel false) ps))), []. split.
      - unfold join_sorted_holes. destruct (map (fun c => [c]) _) as [|s [|s' l]]; auto.
      - split; [|intros [|ix] k E; discriminate]. split; auto. split; auto. split; [apply map_length|]. intros k o E. rewrite (single_nth _ k o E). unfold given. simpl. auto. }
    destruct (map p_contour (filter (isel false) ps)) as [|o0 [|o1 os]] eqn:Eo.
    { (* holes without outer contours: impossible *)
      exfalso. destruct an0 as [|a an1] eqn:Ean0; [simpl in *; lia|]. destruct (An1 0%nat a eq_refl) as (_ & h & ph & t & u & U & Hh & _). destruct (belongs_ex _ _ _ Hh) as (k & h' & ph' & o & po & _ & Ho & _).
      destruct (sel_at _ _ _ _ Ho) as (_ & _ & X). apply map_eq_nil in Eo. rewrite Eo in X. destruct k; discriminate. }
    { (* a single outer contour *)
      exists [o0 :: h0 :: hs], (repeat O (length (h0 :: hs))). split; [reflexivity|]. split.
      - split; [apply repeat_length|]. split; [apply Forall_forall; intros x I; apply repeat_spec in I; subst x; simpl; lia|]. split; auto.
        intros k c E. destruct k as [|[|k]]; simpl in E; try discriminate. injection E as <-. rewrite given_all. auto.
      - intros ix k E. pose proof E as E0. apply nth_error_In, repeat_spec in E. subst k. assert (L : (ix < length an0)%nat) by (rewrite <- Lan, <- Lh, <- (repeat_length O (length (h0 :: hs))); apply nth_error_Some; congruence).
        destruct (nth_error an0 ix) as [a|] eqn:Ha; [|apply nth_error_None in Ha; lia]. destruct (An1 ix a Ha) as (_ & h & ph & t & u & U & Hh & _).
        destruct (belongs_ex _ _ _ Hh) as (k & B). pose proof B as (h' & ph' & o & po & _ & Ho & _). destruct (sel_at _ _ _ _ Ho) as (_ & _ & X).
        assert (k = 0)%nat; [|subst k; auto]. assert (L2 : (k < length (filter (isel false) ps))%nat) by (apply nth_error_Some; congruence).
        rewrite <- (map_length p_contour), Eo in L2. simpl in L2. lia. }
    (* the scan *)
    set (an' := add_sort_by_angle an).
    assert (Pa : Permutation an' an) by apply add_sort_perm.
    assert (Nvu : forall ph h t u U, P_ h ph -> hanchor ph t u -> part U u -> In U (edges (p_contour ph)) -> nonvert (seg u) /\ nonvert (nrm U)).
    { intros ph h t u U Hp Ha PU IU. assert (Nu : nonvert (seg u)) by (unfold nonvert; apply qlt_z; apply (ha_nv _ _ _ Ha)). split; auto. eapply sub_nonvert; eauto. apply PU. }
    assert (Fa : Forall flat an).
    { apply Forall_forall. intros a I. destruct (An a I) as (_ & h & ph & t & u & U & Hh & Ha & IU & PU & _ & Es). unfold flat. rewrite Es. apply (proj1 (qz_lt _ _)). destruct (sel_at _ _ _ _ Hh) as (Hp & _). apply (Nvu ph h t u U Hp Ha PU IU). }
    assert (Sa' : StronglySorted (fun s t => a_angle_leb s t = true) an') by (apply add_sort_sorted; auto).
    assert (An' : forall a, In a an' -> nth_error an0 (id_ix a) = Some a).
    { intros a I. apply (Permutation_in _ Pa) in I. apply An; auto. }
    assert (Ne : an' <> []).
    { intro E. rewrite E in Pa. apply Permutation_nil in Pa. rewrite Pa in Lh. simpl in Lh. lia. }
    assert (Go : join_sorted_holes dbg (map (fun c => [c]) (o0 :: o1 :: os)) (h0 :: hs) an clockwise = scan_join dbg (map (fun c => [c]) (o0 :: o1 :: os)) (h0 :: hs) an' clockwise).
    { cbn [map join_sorted_holes]. rewrite (sorted_a_ok an Sa). rewrite andb_false_r. reflexivity. }
    rewrite Go. unfold scan_join. destruct an' as [|first rest] eqn:Ean; [congruence|]. rewrite <- Ean in *.
    assert (Al : all_some (map (@hd_error (list pt)) (map (fun c => [c]) (o0 :: o1 :: os))) = Some (o0 :: o1 :: os)).
    { rewrite map_map. rewrite (all_some_map _ (fun c => c)); [rewrite map_id; auto|]. auto. }
    rewrite Al. set (xm := px (sa (id_seg first))). set (xM := px (sa (id_seg (last an' first)))).
    assert (Xm : forall a, In a an' -> xm <= px (sa (id_seg a)) /\ px (sa (id_seg a)) <= xM).
    { intros a I. split.
      - apply a_angle_px. rewrite Ean in I, Sa'. inversion Sa' as [|? ? _ F]; subst. destruct I as [->|I]; [apply a_angle_refl|]. rewrite Forall_forall in F. auto.
      - apply a_angle_px. apply (last_max (fun s t => a_angle_leb s t = true)); auto. apply a_angle_refl. }
    rewrite <- Eo, <- Eh. rewrite (bsegs_some false xm xM), (bsegs_some true xm xM). rewrite map_length.
    set (segs0 := isort a_angle_leb (segsall false xm xM ++ segsall true xm xM)).
    assert (Ps : Permutation segs0 (segsall false xm xM ++ segsall true xm xM)) by apply isort_perm.
    set (Dom := fun s => exists i p E, P_ i p /\ In E (edges (p_contour p)) /\ s = nrm E).
    assert (Sin : forall y, In y segs0 -> exists h i p E, In y (segsall h xm xM) /\ nth_error (sel h) (id_ix y) = Some (i, p) /\ P_ i p /\ id_hole y = h /\ In E (edges (p_contour p)) /\ keepbig xm xM E /\ id_seg y = nrm E).
    { intros y I. apply (Permutation_in _ Ps) in I. apply in_app_iff in I as [I|I]; pose proof I as I0; apply ball_in in I as (i & p & x & H & Hh & Ix & K & Es);
        [exists false, i, p, x|exists true, i, p, x]; split; auto; split; auto; (split; [apply (sel_at _ _ _ _ H)|]); auto. }
    assert (Fs : forall y, In y segs0 -> Dom (id_seg y) /\ flat y).
    { intros y I. destruct (Sin y I) as (h & i & p & x & _ & _ & Hp & _ & Ix & K & Es). split; [rewrite Es; exists i, p, x; auto|]. unfold flat. rewrite Es. apply K. }
    assert (PD : forall s t, Dom s -> Dom t -> s <> t -> forall q, on_seg s q -> on_seg t q -> is_end s q /\ is_end t q).
    { intros s t (i & p & E & Hp & IE & ->) (j & p' & E' & Hp' & IE' & ->). apply (Pc i j p p'); auto. }
    set (init := if dbg then None else Some O). unfold bind. fold init.
    assert (AE : forall a, In a an' -> exists e, under_edge Dom segs0 a e /\
      (if id_hole e then (exists a', In a' an' /\ id_ix a' = id_ix e /\ a_angle_leb a a' = false) /\ (forall k, belongs (id_ix e) k -> belongs (id_ix a) k) else belongs (id_ix a) (id_ix e))).
    { intros a Ia. destruct (An1 _ a (An' a Ia)) as (_ & h & ph & t & u & U & Hh & Ha & IU & PU & AU & Es). destruct (sel_at _ _ _ _ Hh) as (Hp & Ho & _).
      destruct (anchor_edge h ph t u Hp Ho Ha) as (e & j & pj & Hj & Ie & Ke & Spe & Lte & Ane & Mxe & She & Hole).
      destruct (sel_ex j pj Hj) as (k & Hk). destruct (used_ok j pj e Hj Ie) as (Ve & _ & _). destruct (used_ok h ph u Hp (ha_u _ _ _ Ha)) as (Vu & _ & _).
      destruct (big_link j pj e Hj Ie) as (E & IE & PE). destruct (Nvu ph h t u U Hp Ha PU IU) as [Nu NU].
      assert (SpE : spans (nrm E) (qx (sa (nrm U))) = true) by (rewrite AU; eapply sub_spans; [apply PE|exact Spe]).
      assert (Nve : nonvert (seg e)) by (eapply spans_nonvert; eauto).
      assert (LtE : lt_at (qx (sa (nrm U))) (nrm E) (nrm U)) by (rewrite AU; apply (sub_lt (nrm E) (seg e) (nrm U) (seg u)); auto; [apply PE|apply PU]).
      assert (Ie0 : In (IdS (p_hole pj) k (nrm E)) (segsall (p_hole pj) xm xM)).
      { apply ball_in. exists j, pj, E. cbn [id_ix id_hole id_seg]. split; auto. split; auto. split; auto. split; auto. destruct (Xm a Ia) as [X1 X2]. rewrite Es in X1, X2.
        apply spans_iff in SpE as [S1 S2]. assert (T1 : px (sa (nrm E)) <= px (sa (nrm U))) by (apply qz_le; exact S1). assert (T2 : px (sa (nrm U)) < px (sb (nrm E))) by (apply (proj1 (qz_lt _ _)); exact S2).
        unfold keepbig. destruct PE as [_ KE]. rewrite <- KE. lia. }
      assert (Is0 : In (IdS (p_hole pj) k (nrm E)) segs0).
      { apply (Permutation_in _ (Permutation_sym Ps)). apply in_or_app. destruct (p_hole pj); auto. }
      assert (NEU : nrm E <> nrm U) by (intro X; rewrite X in LtE; apply (lt_at_irrefl _ _ LtE)).
      exists (IdS (p_hole pj) k (nrm E)). split.
      - constructor; cbn [id_seg]; rewrite ?Es; auto.
        + apply a_angle_iff. cbn [id_seg]. rewrite Es. destruct (big_under (nrm E) (nrm U)) as [X|[X1 X2]]; auto.
          * intros q O1 O2. apply (Pc j h pj ph E U); auto.
          * right. split; auto. unfold turn. cbn [id_seg]. rewrite Es. lia.
        + split; [exists h, ph, U; auto|]. unfold flat. rewrite Es. apply (proj1 (qz_lt _ _)). exact NU.
        + intros y Iy Sy Ly Ny. destruct (Sin y Iy) as (hh & i & p & Y & Iyh & _ & Hpi & Hhy & IY & K & Ex). rewrite Ex in *.
          rewrite AU in Sy, Ly |- *. destruct (big_span i p Y _ Hpi IY Sy) as (y' & Iy' & Py' & Sy'). destruct (used_ok i p y' Hpi Iy') as (Vy' & _ & _).
          assert (Nvy : nonvert (seg y')) by (eapply spans_nonvert; eauto).
          destruct (Nat.eq_dec y' e) as [X|X].
          * exfalso. subst y'. assert (EE : nrm Y = nrm E) by (apply (big_same i j p pj Y E e); auto; [apply Py'|apply PE]).
            destruct (ball_owner hh (p_hole pj) xm xM y (IdS (p_hole pj) k (nrm E)) Iyh Ie0) as [X1 X2]; [cbn [id_seg]; congruence|].
            apply Ny. destruct y as [yh yi ys]. cbn [id_hole id_ix id_seg] in *. congruence.
          * apply (sub_lt (nrm Y) (seg y') (nrm E) (seg e)); auto; [apply Py'|apply PE|]. apply Mxe; auto.
            -- destruct Py' as [_ KY]. rewrite KY. apply K.
            -- apply (sub_lt (nrm Y) (seg y') (nrm U) (seg u)); auto; [apply Py'|apply PU].
      - cbn [id_hole id_ix]. destruct (p_hole pj) eqn:Hpj.
        + destruct (sel_at _ _ _ _ Hk) as (_ & _ & Nk). assert (L : (k < length an0)%nat) by (rewrite <- Lan, La; apply nth_error_Some; congruence).
          destruct (nth_error an0 k) as [a'|] eqn:Ek; [|apply nth_error_None in Ek; lia]. destruct (An1 k a' Ek) as (Ix' & j' & pj' & tj & uj & Uj & Hk' & Ha' & IUj & PUj & AUj & Es').
          rewrite Hk in Hk'. injection Hk' as <- <-. destruct (Hole tj uj eq_refl Ha') as [_ Alt]. split.
          * exists a'. split; [apply (Permutation_in _ (Permutation_sym Pa)); apply (Permutation_in _ (Permutation_sym Pan)); eapply nth_error_In; eauto|]. split; auto.
            destruct (a_angle_leb a a') eqn:Lb; auto. exfalso. apply a_angle_iff in Lb. pose proof (turn_anti a a') as Tn. unfold turn in Lb, Tn. rewrite Es, Es' in Lb, Tn. rewrite AU, AUj in Lb, Tn.
            destruct (used_ok j pj uj Hj (ha_u _ _ _ Ha')) as (Vuj & _ & _).
            destruct Alt as [X|[X1 X2]], Lb as [Y|[Y1 Y2]].
            -- eapply pt_lt_irrefl. eapply pt_lt_trans; eauto.
            -- rewrite Y1 in X. eapply pt_lt_irrefl; eauto.
            -- rewrite X1 in Y. eapply pt_lt_irrefl; eauto.
            -- destruct (sub_vec (nrm U) (seg u) (valid_lt u Vu) (nrm_wf U (big_ne h ph U Hp IU)) (proj1 PU)) as (m1 & n1 & M1 & N1 & Z1 & Z2).
               destruct (sub_vec (nrm Uj) (seg uj) (valid_lt uj Vuj) (nrm_wf Uj (big_ne j pj Uj Hj IUj)) (proj1 PUj)) as (m2 & n2 & M2 & N2 & Z3 & Z4).
               rewrite AU in Z1, Z2. rewrite AUj in Z3, Z4. unfold vx, vsub in X2, Y2, Tn. cbn [fst snd] in X2, Y2, Tn.
               set (A1 := px (sb (seg uj)) - px (sa (seg uj))) in *. set (A2 := py (sb (seg uj)) - py (sa (seg uj))) in *. set (B1 := px (sb (seg u)) - px (sa (seg u))) in *. set (B2 := py (sb (seg u)) - py (sa (seg u))) in *.
               set (C1 := px (sb (nrm Uj)) - px (sa (seg uj))) in *. set (C2 := py (sb (nrm Uj)) - py (sa (seg uj))) in *. set (D1 := px (sb (nrm U)) - px (sa (seg u))) in *. set (D2 := py (sb (nrm U)) - py (sa (seg u))) in *.
               assert (Q : (m2 * m1) * (A1 * B2 - A2 * B1) = (n2 * n1) * (C1 * D2 - C2 * D1)).
               { transitivity ((m2 * A1) * (m1 * B2) - (m2 * A2) * (m1 * B1)); [ring|]. rewrite Z1, Z2, Z3, Z4. ring. }
               assert (K1 : 0 < m2 * m1) by nia. assert (K2 : 0 < n2 * n1) by nia. assert (K3 : 0 < C1 * D2 - C2 * D1) by nia. lia.
          * intros kk (j2 & pj2 & o & po & H1 & H2 & H3). rewrite Hk in H1. injection H1 as <- <-. exists h, ph, o, po. split; auto. split; auto.
            assert (So : shape_of h o) by (apply She; exists pj; split; auto; rewrite Hpj; auto). destruct So as (p' & Hp' & So). assert (p' = ph) by (unfold at_ in *; congruence). subst p'. rewrite Ho in So. auto.
        + assert (So : shape_of h j) by (apply She; exists pj; split; auto; rewrite Hpj; auto). destruct So as (p' & Hp' & So). assert (p' = ph) by (unfold at_ in *; congruence). subst p'. rewrite Ho in So.
          exists h, ph, j, pj. auto. }
    destruct (bind_ok Dom) with (segs0 := segs0) (nO := length (o0 :: o1 :: os)) (R := belongs) (anchors0 := an') (anchors := an') (done := @nil idseg) (segs := segs0) (fed := @nil idseg)
      (scan := @nil (xseg * owner)) (t := xm) (parents := repeat init (length an')) as (parents & Ep & Lp & Hp).
    - exact PD.
    - exact Fs.
    - eapply Permutation_NoDup; [apply Permutation_map, Permutation_sym, Ps|apply ball_nd].
    - apply (isort_sorted_on a_angle_leb flat); [intros; apply a_angle_total; auto|intros x y z; apply a_angle_trans|].
      apply Forall_forall. intros y I. apply Fs. apply (Permutation_in _ (Permutation_sym Ps)). auto.
    - intros ix k (h & ph & o & po & _ & Ho & _). destruct (sel_at _ _ _ _ Ho) as (_ & _ & X). rewrite <- Eo, map_length. apply nth_error_Some. congruence.
    - exact Sa'.
    - intros a a' I I' E. pose proof (An' a I) as X. pose proof (An' a' I') as Y. rewrite E in X. congruence.
    - exact AE.
    - reflexivity.
    - reflexivity.
    - constructor; [constructor|intros e []|intros y []].
    - intros a I. apply Xm; auto.
    - intros a I. rewrite repeat_length. rewrite (Permutation_length Pa), Lan. apply nth_error_Some. rewrite (An' a I). discriminate.
    - intros a [].
    - rewrite Eo. rewrite Ep. rewrite repeat_length in Lp. rewrite (Permutation_length Pa) in Lp.
      assert (Nth : forall ix x, nth_error parents ix = Some x -> exists k, x = Some k /\ belongs ix k).
      { intros ix x E. assert (L : (ix < length an)%nat) by (rewrite <- Lp; apply nth_error_Some; congruence).
        destruct (nth_error an0 ix) as [a|] eqn:Ek; [|apply nth_error_None in Ek; lia]. assert (Ia : In a an') by (apply (Permutation_in _ (Permutation_sym Pa)); apply (Permutation_in _ (Permutation_sym Pan)); eapply nth_error_In; eauto).
        destruct (Hp a Ia) as (k & Nk & Bk). destruct (An1 ix a Ek) as (Ex & _). rewrite Ex in *. exists k. split; auto. congruence. }
      destruct (all_somes parents) as (par & Epar); [intros i x E; destruct (Nth i x E) as (k & -> & _); eauto|].
      assert (Bel : forall ix k, nth_error par ix = Some k -> belongs ix k).
      { intros ix k E. destruct (Nth ix (Some k)) as (k' & Ek & B); [rewrite Epar, nth_error_map, E; auto|]. congruence. }
      rewrite Eh. destruct (push_some (h0 :: hs) par (map (fun c => [c]) (o0 :: o1 :: os))) as (out & Eout).
      + rewrite Lh, <- Lp, Epar, map_length. auto.
      + apply Forall_forall. intros k I. apply In_nth_error in I as (ix & E). destruct (Bel ix k E) as (h & ph & o & po & _ & Ho & _). destruct (sel_at _ _ _ _ Ho) as (_ & _ & X).
        rewrite map_length, <- Eo, map_length. apply nth_error_Some. congruence.
      + rewrite <- Epar in Eout. exists out. destruct (push_assembled _ _ _ _ Eout) as (par' & As & rest' & Er). exists par'. split; auto. split; auto.
        intros ix k E. apply Bel. assert (X : nth_error parents ix = Some (Some k)).
        { rewrite Er, nth_error_app1; [rewrite nth_error_map, E; auto|rewrite map_length; apply nth_error_Some; congruence]. }
        rewrite Epar, nth_error_map in X. destruct (nth_error par ix); simpl in X; congruence.
  Qed.

  End Thinned.

  (** ** the region of a shape *)
  Definition windi (q : qpt) (i : nat) : Z := match nth_error ps i with Some p => wind (C p) q | None => 0 end.
  Lemma windi_at q i p : P_ i p -> windi q i = wind (C p) q.
  Proof. intro H. unfold windi. unfold at_ in H. rewrite H. auto. Qed.
  Lemma first_after q o : (forall j p, (o < j)%nat -> P_ j p -> wind (C p) q = 0) \/
    exists j p, (o < j)%nat /\ P_ j p /\ wind (C p) q <> 0 /\ forall i p', (o < i < j)%nat -> P_ i p' -> wind (C p') q = 0.
  Proof.
    assert (H : forall n, (forall j p, (o < j < n)%nat -> P_ j p -> wind (C p) q = 0) \/
      exists j p, (o < j)%nat /\ P_ j p /\ wind (C p) q <> 0 /\ forall i p', (o < i < j)%nat -> P_ i p' -> wind (C p') q = 0).
    { induction n as [|n [IH|IH]]; [left; intros; lia| |right; auto]. destruct (le_lt_dec n o) as [L|L]; [left; intros; lia|].
      destruct (nth_error ps n) as [p|] eqn:E.
      - destruct (Z.eq_dec (wind (C p) q) 0) as [Z0|Z0].
        + left. intros j p' Lj Hj. destruct (Nat.eq_dec j n) as [->|]; [unfold at_ in Hj; congruence|]. apply (IH j); auto. lia.
        + right. exists n, p. auto.
      - left. intros j p' Lj Hj. destruct (Nat.eq_dec j n) as [->|]; [unfold at_ in Hj; congruence|]. apply (IH j); auto. lia. }
    destruct (H (length ps)) as [X|X]; auto. left. intros j p L Hj. apply (X j); auto. split; auto. eapply at_lt; eauto.
  Qed.
  Lemma before_gap q o po : forall m, P_ o po -> (forall i p', (o < i < m)%nat -> P_ i p' -> wind (C p') q = 0) -> (o < m)%nat -> (m <= length ps)%nat ->
    before_sum ps m q = before_sum ps o q + wind (C po) q.
  Proof.
    induction m as [|m IH]; intros Ho N L Lm; [lia|]. destruct (Nat.eq_dec m o) as [->|Ne]; [apply before_S; auto|].
    destruct (nth_error ps m) as [p|] eqn:E; [|apply nth_error_None in E; lia]. rewrite (before_S ps m p q E). rewrite IH; auto; try lia.
    - rewrite (N m p); auto; lia.
    - intros i p' Li Hi. apply (N i); auto. lia.
  Qed.
  Lemma zsum_one {X} (f : X -> Z) l x : NoDup l -> In x l -> (forall y, In y l -> y <> x -> f y = 0) -> zsum f l = f x.
  Proof.
    induction 1 as [|y l N Nd IH]; intros I H; [destruct I|]. rewrite zsum_cons. destruct I as [->|I].
    - rewrite zsum_zero; [lia|]. intros z Iz. apply H; [right; auto|]. intros ->. auto.
    - rewrite IH; auto; [|intros z Iz; apply H; right; auto]. rewrite (H y); [lia|left; auto|]. intros ->. auto.
  Qed.
  Lemma shape_sum o po L q : P_ o po -> p_hole po = false -> NoDup L -> (forall h, In h L <-> parent h o) ->
    (inner q o /\ wind (C po) q + zsum (windi q) L = 1) \/ (~ inner q o /\ wind (C po) q + zsum (windi q) L = 0).
  Proof.
    intros Ho Hh Nd Hl. destruct (Z.eq_dec (wind (C po) q) 0) as [Z0|Nz].
    - right. split; [intros (p & Hp & Np & _); assert (p = po) by (unfold at_ in *; congruence); subst; auto|]. rewrite Z0, zsum_zero; auto.
      intros h I. apply Hl in I as (ph & po' & Hph & Hpo & _ & _ & _ & E & _). assert (po' = po) by (unfold at_ in *; congruence). subst po'. rewrite (windi_at q h ph Hph).
      destruct (Z.eq_dec (wind (C ph) q) 0) as [|N]; auto. specialize (E q N). lia.
    - assert (W1 : wind (C po) q = 1). { destruct (windC o po Ho q) as [X|X]; [congruence|]. unfold sgn in X. rewrite Hh in X. auto. }
      destruct (first_after q o) as [N|(j & pj & Lj & Hj & Nj & Fj)].
      + left. split; [exists po; auto|]. rewrite zsum_zero; [lia|]. intros h I. apply Hl in I as (ph & po' & Hph & Hpo & _ & _ & Lh & _ & _). rewrite (windi_at q h ph Hph). apply (N h); auto.
      + right. split.
        { intros (p & Hp & Np & F). apply Nj. apply (F j); auto. }
        pose proof (sum_before o po q Ho Nz) as B0. rewrite Hh in B0. pose proof (sum_before j pj q Hj Nj) as Bj. pose proof (at_lt j pj Hj) as Lp.
        rewrite (before_gap q o po j) in Bj by (auto; lia). destruct (p_hole pj) eqn:Hhj; [|lia].
        assert (Pj : parent j o).
        { exists pj, po. do 5 (split; auto). split.
          - intros q' N'. rewrite (nest o j po pj Lj Ho Hj q' q N' Nj). auto.
          - intros i p q' Li Hi N'. rewrite (nest i j p pj) with (q' := q); auto; [|lia]. apply (Fj i); auto. }
        rewrite (zsum_one (windi q) L j); auto.
        * rewrite (windi_at q j pj Hj). destruct (windC j pj Hj q) as [X|X]; [congruence|]. unfold sgn in X. rewrite Hhj in X. lia.
        * apply Hl; auto.
        * intros h I Nh. apply Hl in I as (ph & po' & Hph & Hpo & _ & _ & Lh & _ & Gp). rewrite (windi_at q h ph Hph).
          destruct (Z.eq_dec (wind (C ph) q) 0) as [|N]; auto. exfalso. destruct (lt_eq_lt_dec h j) as [[X|X]|X]; [|congruence|].
          -- apply N. apply (Fj h); auto.
          -- apply Nj. apply (Gp j pj q); auto.
  Qed.
  Lemma siblings h h' o ph ph' q : h <> h' -> parent h o -> parent h' o -> P_ h ph -> P_ h' ph' -> wind (C ph) q <> 0 -> wind (C ph') q = 0.
  Proof.
    intros N P1 P2 H1 H2 Nz. destruct (Z.eq_dec (wind (C ph') q) 0) as [|Nz']; auto. exfalso.
    destruct P1 as (a & b & Ha & _ & _ & _ & L & _ & F). destruct P2 as (a' & b' & Ha' & _ & _ & _ & L' & _ & F').
    assert (a = ph) by (unfold at_ in *; congruence). assert (a' = ph') by (unfold at_ in *; congruence). subst a a'.
    destruct (lt_eq_lt_dec h h') as [[X|X]|X]; [|congruence|].
    - apply Nz. apply (F' h ph q); auto.
    - apply Nz'. apply (F h' ph' q); auto.
  Qed.

  (** the shapes; cleaning keeps the winding numbers *)
  Hypothesis Cw : forall i p q, P_ i p -> contour_wind (p_contour p) q = contour_wind (p_raw p) q.
  Lemma contour_C i p q : P_ i p -> contour_wind (p_contour p) q = main_dir clockwise * wind (C p) q.
  Proof. intro H. rewrite (Cw i p q H). destruct (steps_at visI ps St i p H) as (vi & vi' & t & Sf & _). apply (sf_cw _ _ _ _ Sf). Qed.
  Lemma nest_shapes out par : assembled (outer_contours ps) (hole_contours ps) par out -> (forall ix k, nth_error par ix = Some k -> belongs ix k) ->
    forall k sh, nth_error out k = Some sh -> exists o po hs, sh = p_contour po :: hs /\ nth_error (sel false) k = Some (o, po) /\
      (forall q, (inner q o /\ contours_wind sh q = main_dir clockwise) \/ (~ inner q o /\ contours_wind sh q = 0)) /\
      (forall h q, In h hs -> contour_wind h q <> 0 -> contour_wind (p_contour po) q = main_dir clockwise) /\
      (forall a b h h' q, a <> b -> nth_error hs a = Some h -> nth_error hs b = Some h' -> contour_wind h q <> 0 -> contour_wind h' q = 0).
  Proof.
    intros (Lp & Fp & Lo & Sp) Bel k sh E. rewrite outers_sel, holes_sel in *.
    assert (Lk : (k < length (sel false))%nat) by (rewrite sel_len, <- (map_length p_contour), <- Lo; apply nth_error_Some; congruence).
    destruct (nth_error (sel false) k) as [[o po]|] eqn:Ek; [|apply nth_error_None in Ek; lia]. destruct (sel_at _ _ _ _ Ek) as (Ho & Hh & Nk).
    assert (Es : sh = p_contour po :: given par (map p_contour (filter (isel true) ps)) k).
    { specialize (Sp k (p_contour po)). rewrite nth_error_map, Nk in Sp. specialize (Sp eq_refl). congruence. }
    set (hs := given par (map p_contour (filter (isel true) ps)) k) in *. exists o, po, hs. split; auto. split; auto.
    set (F := filter (fun e => (fst e =? k)%nat) (combine par (sel true))).
    assert (Eh : hs = map (fun e => p_contour (snd (snd e))) F).
    { unfold hs, F, given. rewrite <- sel_snd. clear. revert par. induction (sel true) as [|x l IH]; intros [|y par]; auto. cbn [map combine filter fst].
      destruct (y =? k)%nat; cbn [map snd]; rewrite IH; auto. }
    rewrite map_length, <- sel_len in Lp.
    assert (Fin : forall e, In e F -> exists ix, nth_error par ix = Some (fst e) /\ nth_error (sel true) ix = Some (snd e) /\ fst e = k).
    { intros [a b] I. apply filter_In in I as [I X]. cbn [fst snd] in *. apply Nat.eqb_eq in X. apply In_nth_error in I as (ix & Hix). exists ix. cbn [fst snd].
      clear - Hix X. revert ix Hix. generalize (sel true). induction par as [|y p IH]; intros [|z l] [|ix] Hix; cbn [combine nth_error] in *; try discriminate; [split; [congruence|split; congruence]|]. apply IH; auto. }
    assert (Fpar : forall e, In e F -> exists ix h ph, snd e = (h, ph) /\ nth_error (sel true) ix = Some (h, ph) /\ P_ h ph /\ p_hole ph = true /\ parent h o).
    { intros e I. destruct (Fin e I) as (ix & H1 & H2 & H3). destruct e as [a [h ph]]. cbn [fst snd] in *. subst a. exists ix, h, ph. split; auto. split; auto.
      destruct (sel_at _ _ _ _ H2) as (X1 & X2 & _). split; auto. split; auto. destruct (Bel ix k H1) as (h' & ph' & o' & po' & Y1 & Y2 & Y3).
      rewrite H2 in Y1. injection Y1 as <- <-. rewrite Ek in Y2. injection Y2 as <- <-. auto. }
    assert (Nd : NoDup (map (fun e => fst (snd e)) F)).
    { pose proof (sel_nd true) as N. unfold F. clear - N. revert par. induction (sel true) as [|x l IH]; intros [|y par]; try constructor.
      cbn [map] in N. inversion N as [|? ? N1 N2]; subst. cbn [combine filter fst]. destruct (y =? k)%nat; auto. cbn [map snd]. constructor; auto.
      intro I. apply N1. apply in_map_iff in I as ([a b] & Ee & I). apply filter_In in I as [I _]. apply in_combine_r in I. cbn [snd] in Ee. rewrite <- Ee. apply in_map; auto. }
    assert (Hl : forall h, In h (map (fun e => fst (snd e)) F) <-> parent h o).
    { intro h. split.
      - intro I. apply in_map_iff in I as (e & Ee & I). destruct (Fpar e I) as (ix & h' & ph & Es' & _ & _ & _ & Pa). rewrite Es' in Ee. cbn [fst] in Ee. subst h'. auto.
      - intros Pa. pose proof Pa as (ph & po' & Hph & Hpo & Hhh & _). destruct (sel_ex h ph Hph) as (ix & Hix). rewrite Hhh in Hix.
        assert (Lx : (ix < length par)%nat) by (rewrite Lp; apply nth_error_Some; congruence). destruct (nth_error par ix) as [k'|] eqn:Ek'; [|apply nth_error_None in Ek'; lia].
        destruct (Bel ix k' Ek') as (h' & ph' & o' & po2 & Y1 & Y2 & Y3). rewrite Hix in Y1. injection Y1 as <- <-. rewrite (parent_fun h o' o Y3 Pa) in Y2.
        assert (k' = k) by (eapply sel_fun; eauto). subst k'. apply in_map_iff. exists (k, (h, ph)). split; auto. apply filter_In. split; [|cbn [fst]; apply Nat.eqb_refl].
        clear - Ek' Hix. revert ix Ek' Hix. generalize (sel true). induction par as [|y p IH]; intros [|z l] [|ix] A B; cbn [combine nth_error] in *; try discriminate; [left; congruence|right; eapply IH; eauto]. }
    split; [|split].
    - intro q. assert (Ew : contours_wind sh q = main_dir clockwise * (wind (C po) q + zsum (windi q) (map (fun e => fst (snd e)) F))).
      { rewrite Es. unfold contours_wind. rewrite zsum_cons, (contour_C o po q Ho), Eh, !zsum_map. rewrite Z.mul_add_distr_l. f_equal.
        rewrite <- zsum_mult. apply zsum_ext. intros e I. destruct (Fpar e I) as (ix & h & ph & Ee & _ & Hph & _). rewrite Ee. cbn [fst snd]. rewrite (windi_at q h ph Hph). apply (contour_C h ph q Hph). }
      rewrite Ew. destruct (shape_sum o po _ q Ho Hh Nd Hl) as [[I ->]|[I ->]]; [left|right]; split; auto; lia.
    - intros h q I N. rewrite Eh in I. apply in_map_iff in I as (e & Ee & I). destruct (Fpar e I) as (ix & h' & ph & Es' & _ & Hph & _ & Pa). rewrite Es' in Ee. cbn [snd] in Ee. subst h.
      rewrite (contour_C _ _ q Hph) in N. rewrite (contour_C _ _ q Ho). destruct Pa as (ph' & po' & A1 & A2 & _ & _ & _ & A3 & _).
      assert (ph' = ph) by (unfold at_ in *; congruence). assert (po' = po) by (unfold at_ in *; congruence). subst ph' po'. rewrite A3; [lia|]. intro X. apply N. rewrite X. lia.
    - intros a b h h' q Nab Ha Hb N. rewrite Eh, nth_error_map in Ha, Hb.
      destruct (nth_error F a) as [e|] eqn:Ea; [|discriminate]. destruct (nth_error F b) as [e'|] eqn:Eb; [|discriminate]. simpl in Ha, Hb.
      assert (X : fst (snd e) <> fst (snd e')).
      { intro X. apply Nab. apply (proj1 (NoDup_nth_error _) Nd); [rewrite map_length; apply nth_error_Some; congruence|]. rewrite !nth_error_map, Ea, Eb. simpl. congruence. }
      destruct (Fpar e (nth_error_In _ _ Ea)) as (i1 & h1 & ph1 & Es1 & _ & Hp1 & _ & Pa1). destruct (Fpar e' (nth_error_In _ _ Eb)) as (i2 & h2 & ph2 & Es2 & _ & Hp2 & _ & Pa2).
      rewrite Es1 in Ha, X. rewrite Es2 in Hb, X. cbn [fst snd] in *. assert (h = p_contour ph1) by congruence. assert (h' = p_contour ph2) by congruence. subst h h'.
      rewrite (contour_C _ _ q Hp1) in N. rewrite (contour_C _ _ q Hp2). rewrite (siblings h1 h2 o ph1 ph2 q); auto; [lia|]. intro Y. apply N. rewrite Y. lia.
  Qed.
  Lemma nest_disjoint out par k k' sh sh' q : assembled (outer_contours ps) (hole_contours ps) par out -> (forall ix k, nth_error par ix = Some k -> belongs ix k) ->
    nth_error out k = Some sh -> nth_error out k' = Some sh' -> contours_wind sh q <> 0 -> contours_wind sh' q <> 0 -> k = k'.
  Proof.
    intros As Bel E E' N N'. destruct (nest_shapes out par As Bel k sh E) as (o & po & hs & _ & S1 & W & _). destruct (nest_shapes out par As Bel k' sh' E') as (o' & po' & hs' & _ & S2 & W' & _).
    destruct (W q) as [[I _]|[_ Z0]]; [|congruence]. destruct (W' q) as [[I' _]|[_ Z0]]; [|congruence].
    assert (o = o') by (eapply inner_fun; eauto). subst o'. eapply sel_fun; eauto.
  Qed.
End Nest.
