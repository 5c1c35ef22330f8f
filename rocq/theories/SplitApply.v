(** * [apply]: both code paths, conservation laws, exact splitting. *)
From Verif Require Import Base Spec QLib ModelSegm SegmProofs MergeProofs PlanarGeo PlanarSum ModelFill FillProofs FillCorrect ModelCross CrossProofs CrossPoint MarksProofs ModelSplit CoreResults SplitProofs SplitPlanar SplitPass BinsProofs.
Open Scope Z_scope.

(** Contract of [i_key_sort::BinLayout]: the bin index is monotone on the range the
    layout was made for. *)
Definition layout_ok (layout_new : Z -> Z -> nat -> option (Z -> nat)) : Prop :=
  forall mn mx n index, layout_new mn mx n = Some index ->
    forall x y, mn <= x -> x <= y -> y <= mx -> (index x <= index y)%nat.

(** the split of all segments, before sorting *)
Definition split_pieces {C} {WC : WindingCount C} (segs : list (segment C)) (ms : list mark) : list (segment C) :=
  all_pieces (sort_and_filter_marks (map sx segs) ms) (enum segs).

Section Generic.
  Context {C : Type} {WC : WindingCount C}.

  Lemma create_ends a b c : (sa (sx (create_and_validate a b c)) = a /\ sb (sx (create_and_validate a b c)) = b) \/
                            (sa (sx (create_and_validate a b c)) = b /\ sb (sx (create_and_validate a b c)) = a).
  Proof. unfold create_and_validate. destruct (pt_ltb a b); simpl; auto. Qed.

  Lemma chop_ends c ms : forall p b (e : segment C), In e (chop c p ms b) ->
    In (sa (sx e)) (p :: ms ++ [b]) /\ In (sb (sx e)) (p :: ms ++ [b]).
  Proof.
    induction ms as [|m ms IH]; intros p b e I; simpl in I.
    - destruct I as [<-|[]]. destruct (create_ends p b c) as [[-> ->]|[-> ->]]; simpl; auto.
    - destruct I as [<-|I].
      + destruct (create_ends p m c) as [[-> ->]|[-> ->]]; simpl; auto.
      + apply IH in I as [A B]. split; right; [exact A|exact B].
  Qed.

  Lemma chop_wf c ms : forall p b, NoDup (p :: ms ++ [b]) -> Forall (fun e : segment C => wf_xseg (sx e)) (chop c p ms b).
  Proof.
    assert (K : forall a b, a <> b -> wf_xseg (sx (create_and_validate a b c))).
    { intros a b N. unfold create_and_validate, wf_xseg. destruct (pt_ltb a b) eqn:E; simpl; [apply pt_ltb_lt; auto|].
      apply pt_ltb_ge in E. destruct (pt_total a b) as [[L|L]|L]; tauto. }
    induction ms as [|m ms IH]; intros p b ND; simpl; inversion ND as [|? ? N1 N2]; subst.
    - constructor; [|constructor]. apply K. simpl in N1. intros ->. tauto.
    - constructor; [apply K; simpl in N1; intros ->; tauto|]. apply IH. exact N2.
  Qed.

  Lemma chop_counts (P : C -> Prop) c ms : P c -> P (wc_invert c) -> forall p b, Forall (fun e : segment C => P (sc e)) (chop c p ms b).
  Proof.
    intros H1 H2. assert (K : forall a b, P (sc (create_and_validate a b c))) by (intros; unfold create_and_validate; destruct (pt_ltb a b); auto).
    induction ms as [|m ms IH]; intros p b; simpl; constructor; auto.
  Qed.

  Lemma split_edge_length gs : forall l : list (segment C), Forall (fun g => (fst g < length l)%nat) gs ->
    length (fold_left split_edge gs l) = (length l + length (flat_map snd gs))%nat.
  Proof.
    induction gs as [|[k ps] gs IH]; intros l F; cbn [fold_left flat_map snd]; [simpl; lia|].
    pose proof (Forall_inv F) as F1. pose proof (Forall_inv_tail F) as F2. simpl in F1.
    assert (L : length (split_edge l (k, ps)) = (length l + length ps)%nat).
    { unfold split_edge. simpl. destruct (nth_error l k) as [s|] eqn:E; [|apply nth_error_None in E; lia].
      assert (LC : forall p b, length (chop (sc s) p ps b) = S (length ps)) by (induction ps; intros; simpl; auto).
      specialize (LC (sa (sx s)) (sb (sx s))). destruct (chop (sc s) (sa (sx s)) ps (sb (sx s))) as [|e0 rest]; [discriminate|].
      simpl in LC. rewrite app_length, set_nth_length. lia. }
    rewrite IH, L, app_length; [lia|].
    eapply Forall_impl; [|exact F2]. intros g Hg. cbv beta in *. rewrite L. lia.
  Qed.
End Generic.

Section One.
  Context {C : Type} {WC : WindingCount C} {WL : WCLaws C}.
  Variable segs : list (segment C).
  Variable ms : list mark.
  Notation xs := (map sx segs).
  Notation gs := (sort_and_filter_marks xs ms).
  Hypothesis Range : forall m, In m ms -> (fst m < length segs)%nat.

  Lemma in_pieces e : In e (split_pieces segs ms) <->
    exists i s, nth_error segs i = Some s /\ In e (pieces s (lookup gs i)).
  Proof.
    unfold split_pieces, all_pieces. rewrite in_flat_map. split.
    - intros ([i s] & I & E). apply enum_nth in I. eauto.
    - intros (i & s & I & E). exists (i, s). split; auto. apply enum_nth; auto.
  Qed.

  Lemma in_pieces_ends e : In e (split_pieces segs ms) ->
    exists i s, nth_error segs i = Some s /\
      (sa (sx e) = sa (sx s) \/ sa (sx e) = sb (sx s) \/ In (i, sa (sx e)) ms) /\
      (sb (sx e) = sa (sx s) \/ sb (sx e) = sb (sx s) \/ In (i, sb (sx e)) ms).
  Proof.
    intro I. apply in_pieces in I as (i & s & Hs & I). exists i, s. split; auto.
    destruct (lookup gs i) as [ps|] eqn:L; simpl in I.
    - apply lookup_spec in L as (_ & L & _). apply chop_ends in I as [A B].
      simpl in A, B. rewrite in_app_iff in A, B. simpl in A, B. rewrite L in A, B. intuition auto.
    - destruct I as [<-|[]]. auto.
  Qed.

  Lemma pieces_length : length (split_pieces segs ms) = (length segs + length (flat_map snd gs))%nat.
  Proof.
    unfold split_pieces. rewrite <- (split_edge_length gs segs).
    - symmetry. apply Permutation_length. apply split_edges_perm; [apply groups_nodup|apply groups_range; auto].
    - apply groups_range; auto.
  Qed.

  Lemma emit_all : emit (enum segs) gs = split_pieces segs ms.
  Proof.
    unfold split_pieces. rewrite enum_from_enum. apply emit_pieces; [apply groups_sorted|].
    apply Forall_forall. intros; lia.
  Qed.

  Hypothesis NE : Forall (fun s => wc_not_empty (sc s) = true) segs.
  Hypothesis OK : Forall (fun s => wc_ok (sc s)) segs.

  Lemma pieces_ok : Forall (fun s : segment C => wc_ok (sc s)) (split_pieces segs ms).
  Proof.
    apply Forall_forall. intros e I. apply in_pieces in I as (i & s & Hs & I).
    apply nth_error_In in Hs. rewrite Forall_forall in OK. specialize (OK s Hs).
    destruct (lookup gs i) as [ps|]; simpl pieces in I.
    - assert (F : Forall (fun e : segment C => wc_ok (sc e)) (chop (sc s) (sa (sx s)) ps (sb (sx s)))).
      { apply (chop_counts (fun c => wc_ok c)); auto. apply wc_ok_invert; auto. }
      rewrite Forall_forall in F. auto.
    - destruct I as [<-|[]]; auto.
  Qed.

  Lemma pieces_nonempty : Forall (fun s : segment C => wc_not_empty (sc s) = true) (split_pieces segs ms).
  Proof.
    apply Forall_forall. intros e I. apply in_pieces in I as (i & s & Hs & I).
    apply nth_error_In in Hs. rewrite Forall_forall in NE, OK. specialize (NE s Hs). specialize (OK s Hs).
    destruct (lookup gs i) as [ps|]; simpl pieces in I.
    - assert (F : Forall (fun e : segment C => wc_not_empty (sc e) = true) (chop (sc s) (sa (sx s)) ps (sb (sx s)))).
      { apply (chop_counts (fun c => wc_not_empty c = true)); auto. apply wc_ne_invert; auto. }
      rewrite Forall_forall in F. auto.
    - destruct I as [<-|[]]; auto.
  Qed.

  Lemma one_bin_spec : one_bin_merge gs segs = sort_merge (split_pieces segs ms).
  Proof.
    unfold one_bin_merge. fold (sort_merge (fold_left split_edge gs segs)). symmetry. apply sort_merge_perm.
    - symmetry. apply split_edges_perm; [apply groups_nodup|apply groups_range; auto].
    - apply pieces_nonempty.
  Qed.

  (** the bucketed path *)
  Variable mn mx : Z.
  Variable index : Z -> nat.
  Hypothesis Mono : forall x y, mn <= x -> x <= y -> y <= mx -> (index x <= index y)%nat.
  Hypothesis Box : forall e, In e (split_pieces segs ms) -> mn <= px (sa (sx e)) <= mx.

  Lemma bins_spec : bins_merge index (length segs + length (flat_map snd gs)) (S (index mx)) gs segs =
    Some (sort_merge (split_pieces segs ms)).
  Proof.
    assert (K : forall x, In x (split_pieces segs ms) -> (index (px (sa (sx x))) < S (index mx))%nat).
    { intros x I. specialize (Box x I). apply le_n_S. apply Mono; lia. }
    rewrite bins_result; rewrite emit_all; auto using pieces_length.
    destruct (bins_sorted index (S (index mx)) (split_pieces segs ms)) as [P S]; auto.
    { intros x y Hx Hy L. pose proof (Box x Hx). pose proof (Box y Hy). apply Mono; lia. }
    f_equal. apply merge_any_sort; auto. apply pieces_nonempty.
  Qed.
End One.

(** ** [apply] *)
Section ApplySpec.
  Context {C : Type} {WC : WindingCount C} {WL : WCLaws C}.
  Variable layout_new : Z -> Z -> nat -> option (Z -> nat).
  Hypothesis Lay : layout_ok layout_new.
  Variable segs : list (segment C).
  Variable ms : list mark.
  Notation gs := (sort_and_filter_marks (map sx segs) ms).
  Hypothesis NE : Forall (fun s => wc_not_empty (sc s) = true) segs.
  Hypothesis OK : Forall (fun s => wc_ok (sc s)) segs.
  Hypothesis Wf : Forall (fun s => wf_xseg (sx s)) segs.
  Hypothesis Srt : strict_sorted segs.
  Hypothesis Range : forall m, In m ms -> (fst m < length segs)%nat.
  (** no mark lies to the left of all segments *)
  Hypothesis Left : forall m s0, In m ms -> nth_error segs 0 = Some s0 -> px (sa (sx s0)) <= px (snd m).
  Hypothesis Some_marks : ms <> [].

  Lemma fold_max_ge {A} (f : A -> Z) l : forall m, m <= fold_left (fun m x => Z.max m (f x)) l m /\
    forall x, In x l -> f x <= fold_left (fun m x => Z.max m (f x)) l m.
  Proof.
    induction l as [|y l IH]; intro m; simpl; [split; [lia|tauto]|].
    destruct (IH (Z.max m (f y))) as [A1 A2]. split; [lia|]. intros x [<-|I]; [lia|auto].
  Qed.

  Theorem apply_spec : apply layout_new ms segs = Some (sort_merge (split_pieces segs ms)).
  Proof.
    unfold apply. destruct segs as [|s0 rest] eqn:ES.
    { destruct ms as [|m ?]; [exfalso; apply Some_marks; reflexivity|]. specialize (Range m (or_introl eq_refl)). simpl in Range. lia. }
    rewrite <- ES in *. destruct ms as [|m0 ms0] eqn:EM; [exfalso; apply Some_marks; reflexivity|]. rewrite <- EM in *.
    destruct (_ <=? 16)%nat; [rewrite one_bin_spec; auto|].
    set (mx := fold_left _ rest _).
    destruct (layout_new (px (sa (sx s0))) mx (length segs + length (flat_map snd gs))) as [index|] eqn:EL; [|rewrite one_bin_spec; auto].
    apply (bins_spec segs ms Range NE OK (px (sa (sx s0))) mx index).
    - eapply Lay; eauto.
    - (* every piece starts between min and max *)
      assert (Mx : (forall s, In s segs -> px (sb (sx s)) <= mx) /\ forall p, In p (flat_map snd gs) -> px p <= mx).
      { unfold mx. destruct (fold_max_ge (fun s : segment C => px (sb (sx s))) rest (fold_left (fun m p => Z.max m (px p)) (flat_map snd gs) (px (sb (sx s0))))) as [A1 A2].
        destruct (fold_max_ge px (flat_map snd gs) (px (sb (sx s0)))) as [B1 B2]. split.
        - intros s I. rewrite ES in I. destruct I as [<-|I]; [lia|]. apply A2; auto.
        - intros p I. specialize (B2 p I). lia. }
      destruct Mx as [M1 M2].
      assert (Mn : forall s, In s segs -> px (sa (sx s0)) <= px (sa (sx s)) <= px (sb (sx s))).
      { intros s I. rewrite Forall_forall in Wf. specialize (Wf s I). unfold wf_xseg, pt_lt in Wf. split; [|lia].
        rewrite ES in I, Srt. destruct I as [<-|I]; [lia|]. unfold strict_sorted in Srt. inversion Srt as [|? ? S1 S2]; subst.
        rewrite Forall_forall in S2. specialize (S2 s I). apply sorted_a_le in S2. auto. }
      intros e I. apply in_pieces in I as (i & s & Hs & I).
      pose proof (nth_error_In _ _ Hs) as Is. pose proof (Mn s Is) as Ns. pose proof (M1 s Is) as Nx.
      destruct (lookup gs i) as [ps|] eqn:L; simpl in I.
      + pose proof (lookup_in _ _ _ L) as Lg. apply lookup_spec in L as (_ & L & _). apply chop_ends in I as [A _].
        simpl in A. rewrite in_app_iff in A. destruct A as [A|[A|[A|[]]]]; try (rewrite <- A; lia).
        pose proof A as A'. apply L in A'. split.
        * apply (Left _ s0) in A'; [exact A'|]. rewrite ES. reflexivity.
        * apply M2. apply in_flat_map. exists (i, ps). auto.
      + destruct I as [<-|[]]. lia.
  Qed.
End ApplySpec.

(** ** Conservation *)
Section Conserve.
  Context {C : Type} {WC : WindingCount C} {WL : WCLaws C}.
  Variable segs : list (segment C).
  Variable ms : list mark.
  Notation gs := (sort_and_filter_marks (map sx segs) ms).
  Variable f : C -> Z.
  Hypothesis f_inv : forall c, f (wc_invert c) = - f c.

  Lemma pieces_sum (w : pt -> pt -> Z) (w_anti : forall a b, w a b = - w b a) (P : nat -> pt -> Prop) :
    (forall i s, nth_error segs i = Some s -> P i (sa (sx s)) /\ P i (sb (sx s))) ->
    (forall i p, In (i, p) ms -> P i p) ->
    (forall i s x y z, nth_error segs i = Some s -> P i x -> P i y -> P i z -> w x y + w y z = w x z) ->
    zsum (segval f w) (split_pieces segs ms) = zsum (segval f w) segs.
  Proof.
    intros H1 H2 H3. unfold split_pieces, all_pieces. rewrite zsum_flat_map.
    transitivity (zsum (fun x => segval f w (snd x)) (enum segs)).
    - apply zsum_ext. intros [i s] I. apply enum_nth in I. simpl.
      destruct (lookup gs i) as [ps|] eqn:L; simpl.
      + apply lookup_spec in L as (_ & L & _). rewrite chop_val by auto. unfold segval. f_equal.
        destruct (H1 i s I) as [A B]. apply (polyline_col w (P i)); eauto.
        apply Forall_forall. intros p Hp. apply H2. apply L. auto.
      + rewrite zsum_cons, zsum_nil. lia.
    - rewrite enum_from_enum. generalize O. clear. induction segs as [|s l IH]; intro n; simpl; [reflexivity|].
      rewrite !zsum_cons. rewrite (IH (S n)). reflexivity.
  Qed.
End Conserve.
