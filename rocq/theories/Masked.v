(** * Dropping whole contours beforehand: the others are found unchanged, when at most two links meet in every node. *)
From Verif Require Import Base Spec PlanarGeo ModelSegm ModelFill ModelFilter CoreResults ModelGraph GraphProofs ModelExtract ExtractProofs
  ContourResults VectorProofs Order Fewer.
Open Scope nat_scope.

Lemma none {A} (f : A -> bool) l : (forall x, In x l -> f x = false) -> filter f l = [].
Proof. induction l as [|x l IH]; intro H; auto. cbn [filter]. rewrite (H x) by (left; auto). apply IH. intros; apply H; right; auto. Qed.

Section Masked.
  Variable g : graph.
  Variable pts : list pt.
  Hypothesis GW : graph_wf g pts.
  Notation links := (g_links g).
  Variable clean : bool -> list pt -> list pt * bool.
  Variable r : OverlayRule.
  Variables cw simplify : bool.
  Variable D : nat -> bool.

  (** the flags with the links of [D] visited as well *)
  Definition masked (vis vis' : list bool) : Prop := length vis' = length vis /\ forall j, is_visited vis' j = is_visited vis j || D j && (j <? length vis).
  Definition mask (vis : list bool) : list bool := map (fun j => is_visited vis j || D j) (seq 0 (length vis)).
  Lemma mask_masked vis : masked vis (mask vis).
  Proof.
    unfold masked, mask. split; [rewrite map_length, seq_length; auto|]. intro j. destruct (Nat.ltb_spec j (length vis)) as [L|L].
    - unfold is_visited at 1. assert (E : nth_error (map (fun j => is_visited vis j || D j) (seq 0 (length vis))) j = Some (is_visited vis j || D j)).
      { rewrite nth_error_map. assert (X : nth_error (seq 0 (length vis)) j = Some (0 + j)).
        { rewrite (nth_error_nth' _ 0) by (rewrite seq_length; auto). rewrite seq_nth; auto. }
        rewrite X. auto. }
      rewrite (nth_error_nth _ _ true E), andb_true_r. auto.
    - unfold is_visited. rewrite !nth_overflow by (rewrite ?map_length, ?seq_length; auto). auto.
  Qed.
  Lemma masked_un vis vis' j : masked vis vis' -> not_visited vis' j = not_visited vis j && negb (D j).
  Proof.
    intros [L M]. unfold not_visited. rewrite M. destruct (is_visited vis j) eqn:V; auto. cbn [orb negb andb].
    assert (U : not_visited vis j = true) by (unfold not_visited; rewrite V; auto). apply unvisited_lt in U. apply Nat.ltb_lt in U. rewrite U, andb_true_r. auto.
  Qed.
  Lemma masked_visit vis vis' i : i < length vis -> masked vis vis' -> masked (visit i vis) (visit i vis').
  Proof.
    intros Li [L M]. split; [rewrite !visit_length; auto|]. intro j. rewrite !visit_spec, M, visit_length by lia. destruct (i =? j); auto.
  Qed.

  (** no link of [D] is open where the links of [U] end *)
  Definition clear (U : list nat) (vis : list bool) : Prop := forall x y n k, In x U -> nth_error (g_nodes g) k = Some n -> In x (node_links n) -> In y (node_links n) ->
    D y = true -> not_visited vis y = false.
  Lemma clear_visit U vis i : i < length vis -> clear U vis -> clear U (visit i vis).
  Proof.
    intros Li H x y n k Ix Hn Xn Yn Dy. unfold not_visited. rewrite visit_spec by auto. pose proof (H x y n k Ix Hn Xn Yn Dy) as E. unfold not_visited in E.
    destruct (i =? y); auto.
  Qed.
  Lemma clear_filter U vis vis' x n k : masked vis vis' -> clear U vis -> In x U -> nth_error (g_nodes g) k = Some n -> In x (node_links n) ->
    filter (not_visited vis') (node_links n) = filter (not_visited vis) (node_links n).
  Proof.
    intros M H Ix Hn Xn. apply filter_ext_in. intros y Yn. rewrite (masked_un _ _ y M). destruct (D y) eqn:Dy; [|rewrite andb_true_r; auto].
    rewrite (H x y n k Ix Hn Xn Yn Dy). auto.
  Qed.
  Lemma walk_masked U dir last : forall fuel i k vis vis' l0 c u v, masked vis vis' -> clear U vis -> In i U -> nth_error links i = Some l0 -> (l_aid l0 = k \/ l_bid l0 = k) ->
    length vis = length links -> walk g fuel dir i k last vis = Some (c, u, v) -> (forall x, In x u -> In x U) ->
    exists v', walk g fuel dir i k last vis' = Some (c, u, v') /\ masked v v'.
  Proof.
    induction fuel as [|fuel IH]; intros i k vis vis' l0 c u v M H Ii Hl El Len W Su; cbn [walk] in *.
    - destruct (k =? last); [|discriminate]. injection W as <- <- <-. eauto.
    - destruct (k =? last); [injection W as <- <- <-; eauto|].
      destruct (nth_error (g_nodes g) k) as [n|] eqn:Hn; [|discriminate].
      assert (X : next_link g i k dir n vis' = next_link g i k dir n vis).
      { unfold next_link. destruct n as [a b|ids]; auto. unfold find_nearest_link_to.
        assert (Xn : In i (node_links (Cross ids))) by (apply (gw_node _ _ GW k _ Hn); eauto).
        pose proof (clear_filter U vis vis' i (Cross ids) k M H Ii Hn Xn) as E. cbn [node_links] in E. rewrite E. auto. }
      rewrite X. destruct (next_link g i k dir n vis) as [j|] eqn:Nx; [|discriminate]. destruct (nth_error links j) as [l|] eqn:Hj; [|discriminate].
      assert (Lj : j < length vis) by (rewrite Len; apply nth_error_Some; congruence).
      destruct (l_aid l =? k) eqn:Ea.
      + destruct (walk g fuel dir j (l_bid l) last (visit j vis)) as [[[c' u'] v']|] eqn:Wk; [|discriminate]. injection W as <- <- <-.
        destruct (IH j (l_bid l) (visit j vis) (visit j vis') l c' u' v') as (v2 & W2 & M2); auto.
        * apply masked_visit; auto.
        * apply clear_visit; auto.
        * apply Su. left; auto.
        * rewrite visit_length; auto.
        * intros x Ix. apply Su. right; auto.
        * exists v2. rewrite W2. auto.
      + destruct (walk g fuel dir j (l_aid l) last (visit j vis)) as [[[c' u'] v']|] eqn:Wk; [|discriminate]. injection W as <- <- <-.
        destruct (IH j (l_aid l) (visit j vis) (visit j vis') l c' u' v') as (v2 & W2 & M2); auto.
        * apply masked_visit; auto.
        * apply clear_visit; auto.
        * apply Su. left; auto.
        * rewrite visit_length; auto.
        * intros x Ix. apply Su. right; auto.
        * exists v2. rewrite W2. auto.
  Qed.

  (** what is open where a contour passes belongs to it *)
  Lemma all_used vis vis' u x y n k : all_even g vis' -> two g vis -> flags_after vis vis' u -> nth_error (g_nodes g) k = Some n -> In x (node_links n) -> In y (node_links n) ->
    In x u -> not_visited vis x = true -> not_visited vis y = true -> In y u.
  Proof.
    intros E' T F Hn Ix Iy Iu Ux Uy. destruct (in_dec Nat.eq_dec y u) as [|N]; auto. exfalso.
    pose proof (deg_after_lt vis vis' u n x F Iu Ux Ix) as Lt. pose proof (T _ n Hn) as T2. specialize (E' _ n Hn).
    assert (P : 1 <= deg vis' n).
    { unfold deg. assert (X : In y (filter (not_visited vis') (node_links n))) by (apply filter_In; split; auto; apply (flags_trans _ _ _ F); auto).
      destruct (filter _ _); [destruct X|simpl; lia]. }
    assert (Dn : deg vis' n = 1) by lia. rewrite Dn in E'. discriminate.
  Qed.

  Lemma one_step vis k l : all_even g vis -> length vis = length links -> two g vis -> is_visited vis k = false -> nth_error links k = Some l ->
    exists lt ll c u vis', find_left_top_link g k vis = Some lt /\ nth_error links lt = Some ll /\
      get_contour g (length vis) (start_path (Bool.eqb (is_fill_top r (l_fill ll)) cw) ll lt) (Bool.eqb (is_fill_top r (l_fill ll)) cw) vis = Some (c, lt :: u, vis') /\
      flags_after vis vis' (lt :: u) /\ all_even g vis' /\ length vis' = length links /\ two g vis' /\ (forall x, In x (lt :: u) -> not_visited vis x = true) /\
      In k (lt :: u) /\ (l_aid ll = l_aid l \/ l_bid ll = l_aid l).
  Proof.
    intros E Len T V Hl. assert (U : not_visited vis k = true) by (unfold not_visited; rewrite V; auto).
    destruct (left_top_spec g pts GW k vis l E U Hl) as (lt & ll & El & Ut & Hll & Ends).
    set (dir := Bool.eqb (is_fill_top r (l_fill ll)) cw).
    destruct (contour_spec g pts GW (length vis) dir dir ll lt vis E Ut Hll Len) as (c & u & vis' & Gc & Ed & Nd & Un & Fl & Ev & Cn & _).
    { pose proof (ucount_le vis). lia. }
    exists lt, ll, c, u, vis'. split; auto. split; auto. split; auto. split; auto. split; auto.
    split; [destruct Fl as [Fl _]; congruence|]. split; [intros x n Hn; pose proof (deg_after vis vis' _ n Fl); specialize (T x n Hn); lia|].
    split; auto. split; auto.
    destruct (gw_link _ _ GW k l Hl) as (_ & _ & _ & n & _ & Hn & _). destruct (gw_node _ _ GW _ n Hn) as [_ M].
    apply (all_used vis vis' (lt :: u) lt k n (l_aid l)); auto; [apply M; eauto|apply M; eauto|left; auto].
  Qed.

  Lemma closed_pieces m : forall fuel k vis ps, all_even g vis -> length vis = length links -> two g vis -> extract_loop g clean fuel r cw simplify m k vis = Some ps ->
    forall p, In p ps -> (forall x, In x (p_used p) -> not_visited vis x = true) /\
      forall x y n j, In x (p_used p) -> nth_error (g_nodes g) j = Some n -> In x (node_links n) -> In y (node_links n) -> not_visited vis y = true -> In y (p_used p).
  Proof.
    induction fuel as [|fuel IH]; intros k vis ps E Len T H; cbn [extract_loop] in H; destruct (length vis <=? k) eqn:L; try discriminate; try (injection H as <-; intros ? []).
    destruct (is_visited vis k) eqn:V; [eapply IH; eauto|]. apply Nat.leb_gt in L.
    assert (Lk : k < length links) by lia. apply nth_error_Some in Lk. destruct (nth_error links k) as [l|] eqn:Hl; [|congruence].
    destruct (one_step vis k l E Len T V Hl) as (lt & ll & c & u & vis' & El & Hll & Gc & Fl & Ev & Len' & T' & Un & Ik & _). rewrite El, Hll, Gc in H.
    destruct (clean simplify c) as [cc mo]. destruct (extract_loop g clean fuel r cw simplify m _ vis') as [ps'|] eqn:Hr; [|discriminate]. injection H as <-.
    assert (C1 : forall x y n j, In x (lt :: u) -> nth_error (g_nodes g) j = Some n -> In x (node_links n) -> In y (node_links n) -> not_visited vis y = true -> In y (lt :: u)).
    { intros x y n j Ix Hn Xn Yn Uy. apply (all_used vis vis' (lt :: u) x y n j); auto. }
    intros p [<-|I]; [split; auto|]. destruct (IH _ _ _ Ev Len' T' Hr p I) as [B1 B2]. split; [intros x Ix; apply B1 in Ix; apply (flags_trans _ _ _ Fl) in Ix; tauto|].
    intros x y n j Ix Hn Xn Yn Uy. apply (B2 x y n j); auto. apply (flags_trans _ _ _ Fl). split; auto. intro Iy.
    apply B1 in Ix. apply (flags_trans _ _ _ Fl) in Ix as [Ux Nx]. apply Nx. apply (C1 y x n j); auto.
  Qed.

  Definition dropped (p : piece) : bool := forallb D (p_used p).
  Lemma extract_masked m : forall fuel k vis vis2 ps, all_even g vis -> length vis = length links -> two g vis -> masked vis vis2 ->
    extract_loop g clean fuel r cw simplify m k vis = Some ps ->
    (forall p, In p ps -> p_used p <> [] -> (forall x, In x (p_used p) -> D x = true) \/ (forall x, In x (p_used p) -> D x = false)) ->
    exists fuel', extract_loop g clean fuel' r cw simplify m k vis2 = Some (filter (fun p => negb (dropped p)) ps).
  Proof.
    induction fuel as [|fuel IH]; intros k vis vis2 ps E Len T M H Dc; cbn [extract_loop] in H.
    - destruct (length vis <=? k) eqn:L; [|discriminate]. injection H as <-. exists 0. cbn [extract_loop filter]. rewrite (proj1 M), L. auto.
    - destruct (length vis <=? k) eqn:L; [injection H as <-; exists 0; cbn [extract_loop filter]; rewrite (proj1 M), L; auto|].
      destruct (is_visited vis k) eqn:V.
      { destruct (IH _ _ _ _ E Len T M H Dc) as (f & X). exists (S f). cbn [extract_loop]. rewrite (proj1 M), L, (proj2 M), V. auto. }
      pose proof L as L'. apply Nat.leb_gt in L'.
      assert (Lk : k < length links) by lia. apply nth_error_Some in Lk. destruct (nth_error links k) as [l|] eqn:Hl; [|congruence].
      destruct (one_step vis k l E Len T V Hl) as (lt & ll & c & u & vis' & El & Hll & Gc & Fl & Ev & Len' & T' & Un & Ik & Ends). rewrite El, Hll, Gc in H.
      destruct (clean simplify c) as [cc mo] eqn:Ec. destruct (extract_loop g clean fuel r cw simplify m _ vis') as [ps'|] eqn:Hr; [|discriminate]. injection H as <-.
      assert (Dc' : forall p, In p ps' -> p_used p <> [] -> (forall x, In x (p_used p) -> D x = true) \/ (forall x, In x (p_used p) -> D x = false)) by (intros p I; apply Dc; right; auto).
      destruct (Dc _ (or_introl eq_refl)) as [A1|A0]; cbn [p_used] in *; [discriminate| |].
      + (* dropped *)
        assert (M' : masked vis' vis2).
        { split; [rewrite (proj1 M); congruence|]. intro j. rewrite (proj2 M), (proj2 Fl), Len', Len. destruct (is_visited vis j) eqn:Vj; auto. cbn [orb].
          assert (Uj : not_visited vis j = true) by (unfold not_visited; rewrite Vj; auto). apply unvisited_lt in Uj. rewrite Len in Uj. apply Nat.ltb_lt in Uj. rewrite Uj, !andb_true_r.
          destruct (memn j (lt :: u)) eqn:Mj; auto. apply memn_in in Mj. rewrite (A1 j Mj). auto. }
        destruct (IH _ _ _ _ Ev Len' T' M' Hr Dc') as (f & X).
        assert (Dp : dropped (Pc (is_fill_top r (l_fill ll)) (is_valid m cc) c cc mo (lt :: u)) = true) by (unfold dropped; cbn [p_used]; apply forallb_forall; auto).
        cbn [filter]. rewrite Dp. cbn [negb]. destruct (is_valid m cc); [eauto|].
        exists (S f). cbn [extract_loop]. rewrite (proj1 M), L, (proj2 M), V, (A1 k Ik). rewrite (proj2 (Nat.ltb_lt _ _) L'). cbn [orb andb]. auto.
      + (* kept *)
        assert (Cl : clear (lt :: u) vis).
        { intros x y n j Ix Hn Xn Yn Dy. destruct (not_visited vis y) eqn:Uy; auto.
          pose proof (all_used vis vis' (lt :: u) x y n j Ev T Fl Hn Xn Yn Ix (Un x Ix) Uy) as Iy. rewrite (A0 y Iy) in Dy. discriminate. }
        assert (V2 : is_visited vis2 k = false) by (rewrite (proj2 M), V, (A0 k Ik); auto).
        assert (Ft : find_left_top_link g k vis2 = Some lt).
        { rewrite <- El. unfold find_left_top_link. rewrite Hl. destruct (gw_link _ _ GW k l Hl) as (_ & _ & _ & n & _ & Hn & _). rewrite Hn. destruct n as [a b|ids]; auto.
          assert (Xn : In k (node_links (Cross ids))) by (apply (gw_node _ _ GW _ _ Hn); eauto).
          assert (Lk0 : forall i, In i ids -> exists t, nth_error links i = Some t) by (intros i Ii; apply (gw_node _ _ GW _ _ Hn) in Ii as (t & Ht & _); eauto).
          rewrite (left_filter g k vis2 ids Lk0), (left_filter g k vis ids Lk0).
          pose proof (clear_filter (lt :: u) vis vis2 k (Cross ids) _ M Cl Ik Hn Xn) as Ef. cbn [node_links] in Ef. rewrite Ef.
          assert (K : forall l' i t, (forall x, In x l' -> not_visited vis x = true /\ D x = false) -> left_top_loop g k l' i t vis2 = left_top_loop g k l' i t vis).
          { induction l' as [|y l' IHl]; intros i t Hy; auto. cbn [left_top_loop]. assert (Hy' : forall x, In x l' -> not_visited vis x = true /\ D x = false) by (intros; apply Hy; right; auto).
            destruct (Hy y (or_introl eq_refl)) as [Uy Dy]. assert (Ev2 : is_visited vis2 y = is_visited vis y) by (rewrite (proj2 M), Dy, orb_false_r; auto). rewrite Ev2.
            destruct (y =? k); [apply IHl; auto|]. destruct (nth_error links y) as [t'|]; auto. destruct (_ || _); [apply IHl; auto|]. destruct (is_visited vis y); apply IHl; auto. }
          apply K. intros x Ix. apply filter_In in Ix as [Ix Ux]. split; auto. destruct (D x) eqn:Dx; auto. rewrite (Cl k x (Cross ids) _ Ik Hn Xn Ix Dx) in Ux. discriminate. }
        unfold get_contour in Gc. set (dir := Bool.eqb (is_fill_top r (l_fill ll)) cw) in *.
        destruct (walk g (length vis) dir (sd_link (start_path dir ll lt)) (sd_node (start_path dir ll lt)) (sd_last (start_path dir ll lt)) (visit (sd_link (start_path dir ll lt)) vis)) as [[[c0 u0] v0]|] eqn:Wk; [|discriminate].
        assert (Sl : sd_link (start_path dir ll lt) = lt) by (unfold start_path; destruct dir; auto). rewrite Sl in *. injection Gc as Ec0 Eu0 Ev0. subst u0 v0.
        assert (Llt : lt < length vis) by (rewrite Len; apply nth_error_Some; congruence).
        destruct (walk_masked (lt :: u) dir (sd_last (start_path dir ll lt)) (length vis) lt (sd_node (start_path dir ll lt)) (visit lt vis) (visit lt vis2) ll c0 u vis') as (v2 & W2 & M2); auto.
        * apply masked_visit; auto.
        * apply clear_visit; auto.
        * left; auto.
        * unfold start_path; destruct dir; cbn [sd_node]; auto.
        * rewrite visit_length; auto.
        * intros x Ix. right; auto.
        * destruct (IH _ _ _ _ Ev Len' T' M2 Hr Dc') as (f & X). exists (S f). cbn [extract_loop]. rewrite (proj1 M), L, V2, Ft, Hll. fold dir.
          unfold get_contour. rewrite Sl, W2, Ec0, Ec, X.
          assert (Dp : dropped (Pc (is_fill_top r (l_fill ll)) (is_valid m cc) c cc mo (lt :: u)) = false) by (unfold dropped; cbn [p_used forallb]; rewrite (A0 lt (or_introl eq_refl)); auto).
          cbn [filter]. rewrite Dp. cbn [negb]. auto.
  Qed.
  Lemma mask_even vis : all_even g vis -> (forall x y n k, nth_error (g_nodes g) k = Some n -> In x (node_links n) -> In y (node_links n) -> not_visited vis x = true -> not_visited vis y = true -> D x = D y) ->
    all_even g (mask vis).
  Proof.
    intros E H k n Hn. specialize (E k n Hn). unfold deg in *. pose proof (mask_masked vis) as M.
    assert (X : filter (not_visited (mask vis)) (node_links n) = filter (fun j => not_visited vis j && negb (D j)) (node_links n)) by (apply filter_ext; intro j; apply masked_un; auto).
    rewrite X. clear X. destruct (existsb (fun j => not_visited vis j && D j) (node_links n)) eqn:Ex.
    - apply existsb_exists in Ex as (x & Ix & Bx). apply andb_true_iff in Bx as [Ux Dx].
      assert (X : filter (fun j => not_visited vis j && negb (D j)) (node_links n) = []); [|rewrite X; auto].
      apply none. intros y Iy. destruct (not_visited vis y) eqn:Uy; auto. rewrite <- (H x y n k), Dx; auto.
    - assert (X : filter (fun j => not_visited vis j && negb (D j)) (node_links n) = filter (not_visited vis) (node_links n)); [|rewrite X; auto].
      apply filter_ext_in. intros y Iy. destruct (not_visited vis y) eqn:Uy; auto. destruct (D y) eqn:Dy; auto.
      assert (Y : existsb (fun j => not_visited vis j && D j) (node_links n) = true) by (apply existsb_exists; exists y; rewrite Uy, Dy; auto). congruence.
  Qed.
End Masked.
