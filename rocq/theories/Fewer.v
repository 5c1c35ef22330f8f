(** * What a minimal area changes when at most two links meet in every node. *)
From Verif Require Import Base Spec PlanarGeo ModelSegm ModelFill ModelFilter CoreResults ModelGraph GraphProofs ModelExtract ExtractProofs
  ContourResults VectorProofs.
Open Scope nat_scope.

(** the same piece, judged by another minimal area *)
Definition revalidate (m : Z) (p : piece) : piece := Pc (p_hole p) (is_valid m (p_contour p)) (p_raw p) (p_contour p) (p_mod p) (p_used p).

Section Fewer.
  Variable g : graph.
  Variable pts : list pt.
  Hypothesis GW : graph_wf g pts.
  Notation links := (g_links g).
  Variable clean : bool -> list pt -> list pt * bool.
  Variable r : OverlayRule.
  Variables cw simplify : bool.
  Notation loop := (fun m fuel k vis => extract_loop g clean fuel r cw simplify m k vis).

  Lemma loop_more m : forall fuel d k vis ps, loop m fuel k vis = Some ps -> loop m (fuel + d) k vis = Some ps.
  Proof.
    cbv beta. induction fuel as [|fuel IH]; intros d k vis ps H.
    - cbn [extract_loop] in H. destruct d; cbn [Nat.add extract_loop]; destruct (length vis <=? k); auto; discriminate.
    - cbn [Nat.add extract_loop] in *. destruct (length vis <=? k); auto. destruct (is_visited vis k); [apply IH; auto|].
      destruct (find_left_top_link g k vis) as [lt|]; [|discriminate]. destruct (nth_error links lt) as [link|]; [|discriminate].
      destruct (get_contour _ _ _ _ _) as [[[raw used] vis']|]; [|discriminate]. destruct (clean simplify raw) as [c mo].
      destruct (extract_loop g clean fuel r cw simplify m _ vis') as [ps'|] eqn:E; [|discriminate]. rewrite (IH d _ _ _ E). auto.
  Qed.
  Lemma loop_det m f f' k vis ps ps' : loop m f k vis = Some ps -> loop m f' k vis = Some ps' -> ps = ps'.
  Proof.
    intros H H'. apply (loop_more m f f') in H. apply (loop_more m f' f) in H'. cbv beta in *. rewrite Nat.add_comm in H'. congruence.
  Qed.

  Definition two (vis : list bool) : Prop := forall k n, nth_error (g_nodes g) k = Some n -> deg vis n <= 2.
  (** the link the search stood on has been walked over *)
  Lemma closed_at k l lt link vis vis' u : all_even g vis -> all_even g vis' -> two vis -> flags_after vis vis' u -> In lt u -> not_visited vis k = true -> not_visited vis lt = true ->
    nth_error links k = Some l -> nth_error links lt = Some link -> (l_aid link = l_aid l \/ l_bid link = l_aid l) -> is_visited vis' k = true.
  Proof.
    intros E E' T F I Uk Ut Hk Ht En. destruct (is_visited vis' k) eqn:V; auto. exfalso.
    destruct (gw_link _ _ GW k l Hk) as (_ & _ & _ & n & _ & Hn & _). destruct (gw_node _ _ GW _ n Hn) as [Nd M].
    assert (Ik : In k (node_links n)) by (apply M; eauto). assert (It : In lt (node_links n)) by (apply M; eauto).
    pose proof (deg_after_lt vis vis' u n lt F I Ut It) as Lt. pose proof (T _ n Hn) as T2. specialize (E' _ n Hn).
    assert (P : 1 <= deg vis' n).
    { unfold deg. assert (X : In k (filter (not_visited vis') (node_links n))) by (apply filter_In; split; auto; unfold not_visited; rewrite V; auto).
      destruct (filter _ _); [destruct X|simpl; lia]. }
    assert (D : deg vis' n = 1) by lia. rewrite D in E'. discriminate.
  Qed.

  Lemma extract_any_area m m' : forall fuel k vis ps, all_even g vis -> length vis = length links -> two vis -> loop m fuel k vis = Some ps ->
    exists fuel', loop m' fuel' k vis = Some (map (revalidate m') ps).
  Proof.
    cbv beta. induction fuel as [|fuel IH]; intros k vis ps E Len T H; cbn [extract_loop] in H.
    - destruct (length vis <=? k) eqn:L; [|discriminate]. injection H as <-. exists 0. cbn [extract_loop map]. rewrite L. auto.
    - destruct (length vis <=? k) eqn:L; [injection H as <-; exists 0; cbn [extract_loop map]; rewrite L; auto|].
      destruct (is_visited vis k) eqn:V.
      { destruct (IH _ _ _ E Len T H) as (f & X). exists (S f). cbn [extract_loop]. rewrite L, V. auto. }
      assert (U : not_visited vis k = true) by (unfold not_visited; rewrite V; auto). pose proof L as L'. apply Nat.leb_gt in L'.
      assert (Lk : k < length links) by lia. apply nth_error_Some in Lk. destruct (nth_error links k) as [l|] eqn:Hl; [|congruence].
      destruct (left_top_spec g pts GW k vis l E U Hl) as (lt & ll & El & Ut & Hll & Ends). rewrite El, Hll in H.
      set (dir := Bool.eqb (is_fill_top r (l_fill ll)) cw) in *.
      destruct (contour_spec g pts GW (length vis) dir dir ll lt vis E Ut Hll Len) as (c & u & vis' & Gc & Ed & Nd & Un & Fl & Ev & Cn & _).
      { pose proof (ucount_le vis). lia. }
      rewrite Gc in H. destruct (clean simplify c) as [cc mo] eqn:Ecl.
      destruct (extract_loop g clean fuel r cw simplify m _ vis') as [ps'|] eqn:Hr; [|discriminate]. injection H as <-.
      assert (Len' : length vis' = length links) by (destruct Fl as [Fl _]; congruence).
      assert (T' : two vis') by (intros x n Hn; pose proof (deg_after vis vis' _ n Fl); specialize (T x n Hn); lia).
      pose proof (closed_at k l lt ll vis vis' (lt :: u) E Ev T Fl (or_introl eq_refl) U Ut Hl Hll Ends) as Vk.
      destruct (IH _ _ _ Ev Len' T' Hr) as (f & X).
      assert (Y : exists f', extract_loop g clean f' r cw simplify m' (if is_valid m' cc then k else S k) vis' = Some (map (revalidate m') ps')).
      { destruct (is_valid m cc), (is_valid m' cc); eauto.
        - destruct (eskip g clean r cw simplify m' vis' (map (revalidate m') ps') 1 f k) with (3 := X) as (f2 & _ & X2); [intros i Hi; assert (i = k) by lia; subst; auto|lia|].
          exists f2. rewrite <- X2. f_equal. lia.
        - exists (S f). cbn [extract_loop]. rewrite Len', <- Len, L, Vk. auto. }
      destruct Y as (f' & Y). exists (S f'). cbn [extract_loop]. rewrite L, V, El, Hll. fold dir. rewrite Gc, Ecl, Y. reflexivity.
  Qed.
  Theorem extract_revalidate m m' vis ps : all_even g vis -> length vis = length links -> two vis ->
    extract_pieces g clean r cw simplify m vis = Some ps -> extract_pieces g clean r cw simplify m' vis = Some (map (revalidate m') ps).
  Proof.
    intros E Len T H. unfold extract_pieces in *. destruct (extract_any_area m m' _ _ _ _ E Len T H) as (f & X).
    destruct (extract_spec g pts GW clean r cw simplify m' (S (2 * length vis)) 0 vis E Len) as (ps' & Y & _); [pose proof (ucount_le vis); lia|].
    rewrite Y. f_equal. exact (loop_det m' _ _ _ _ _ _ Y X).
  Qed.
End Fewer.
