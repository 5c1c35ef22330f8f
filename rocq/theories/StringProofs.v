(** * The walk over the links of a string graph. *)
From Verif Require Import Base Spec QLib ModelSegm ModelFill ModelFilter ModelGraph GraphProofs FillProofs ModelString.
Open Scope nat_scope.

(** the moves of a path *)
Definition steps (path : list pt) : list (pt * pt) := combine path (tl path).

(** the directions left on a link *)
Definition dirs (l : link) : list (pt * pt) :=
  (if N.testbit (l_fill l) 2 then [(l_a l, l_b l)] else []) ++ (if N.testbit (l_fill l) 3 then [(l_b l, l_a l)] else []).
Definition left_dirs (links : list link) : list (pt * pt) := flat_map dirs links.

Lemma steps_cons a b r : steps (a :: b :: r) = (a, b) :: steps (b :: r).
Proof. reflexivity. Qed.
Lemma steps_snoc l a b : steps (l ++ [a; b]) = steps (l ++ [a]) ++ [(a, b)].
Proof.
  induction l as [|x l IH]; [reflexivity|]. destruct l as [|y l]; [reflexivity|].
  cbn [app] in *. rewrite !steps_cons, IH. reflexivity.
Qed.
Definition flip (e : pt * pt) : pt * pt := (snd e, fst e).
Lemma steps_rev l : steps (rev l) = rev (map flip (steps l)).
Proof.
  induction l as [|a l IH]; [reflexivity|]. destruct l as [|b l]; [reflexivity|].
  rewrite steps_cons. cbn [rev map] in *. rewrite <- app_assoc. cbn [app]. rewrite steps_snoc. f_equal. exact IH.
Qed.
Lemma left_length links : length (left_dirs links) <= 2 * length links.
Proof.
  unfold left_dirs. induction links as [|l ls IH]; simpl; auto. rewrite app_length. unfold dirs at 1.
  destruct (N.testbit (l_fill l) 2), (N.testbit (l_fill l) 3); simpl; lia.
Qed.

Lemma upd_length {A} i (f : A -> A) l : length (upd i f l) = length l.
Proof. revert i. induction l as [|x l IH]; intros [|i]; simpl; auto. Qed.
Lemma upd_left i l l' links e : nth_error links i = Some l -> Permutation (dirs l) (e ++ dirs l') ->
  Permutation (left_dirs links) (e ++ left_dirs (upd i (fun _ => l') links)).
Proof.
  revert i. unfold left_dirs. induction links as [|x ls IH]; intros [|i] H P; try discriminate; simpl in *.
  - injection H as ->. rewrite P, <- app_assoc. reflexivity.
  - rewrite (IH i H P). rewrite !app_assoc. apply Permutation_app_tail. apply Permutation_app_comm.
Qed.

(** the ends of the links do not change *)
Definition ends_of (l : link) := (l_aid l, l_a l, l_bid l, l_b l).
Lemma upd_ends i l l' links : nth_error links i = Some l -> ends_of l' = ends_of l -> map ends_of (upd i (fun _ => l') links) = map ends_of links.
Proof.
  revert i. induction links as [|x ls IH]; intros [|i] H E; try discriminate; simpl in *.
  - injection H as ->. congruence.
  - rewrite IH; auto.
Qed.

Lemma land_bit (f : N) (k : N) : N.land f (2 ^ k) = (if N.testbit f k then 2 ^ k else 0)%N.
Proof.
  apply N.bits_inj. intro n. rewrite N.land_spec, N.pow2_bits_eqb.
  destruct (N.eqb_spec k n) as [->|Ne].
  - destruct (N.testbit f n); rewrite ?N.pow2_bits_true, ?N.bits_0; reflexivity.
  - rewrite andb_false_r. destruct (N.testbit f k); [rewrite N.pow2_bits_false|rewrite N.bits_0]; auto.
Qed.
Lemma back_bit f : (N.land f CLIP_BACK =? CLIP_BACK)%N = N.testbit f 2.
Proof. change CLIP_BACK with (2 ^ 2)%N. rewrite land_bit. destruct (N.testbit f 2); reflexivity. Qed.
Lemma forward_bit f : (N.land f CLIP_FORWARD =? CLIP_FORWARD)%N = N.testbit f 3.
Proof. change CLIP_FORWARD with (2 ^ 3)%N. rewrite land_bit. destruct (N.testbit f 3); reflexivity. Qed.
Lemma all_bits f : (N.land f CLIP_ALL =? 0)%N = negb (N.testbit f 2 || N.testbit f 3).
Proof.
  destruct (N.eqb_spec (N.land f CLIP_ALL) 0) as [E|E]; symmetry.
  - apply negb_true_iff, orb_false_iff. split.
    + assert (X := f_equal (fun n => N.testbit n 2) E). cbv beta in X. rewrite N.land_spec in X. rewrite andb_true_r in X. exact X.
    + assert (X := f_equal (fun n => N.testbit n 3) E). cbv beta in X. rewrite N.land_spec in X. rewrite andb_true_r in X. exact X.
  - apply negb_false_iff. destruct (N.testbit f 2) eqn:B2; auto. destruct (N.testbit f 3) eqn:B3; auto. exfalso. apply E.
    change CLIP_ALL with (N.lor (2 ^ 2) (2 ^ 3))%N. rewrite N.land_lor_distr_r, !land_bit, B2, B3. reflexivity.
Qed.
Lemma ldiff_back f : N.testbit (N.ldiff f CLIP_BACK) 2 = false /\ N.testbit (N.ldiff f CLIP_BACK) 3 = N.testbit f 3.
Proof. rewrite !N.ldiff_spec. simpl. rewrite andb_false_r, andb_true_r. auto. Qed.
Lemma ldiff_forward f : N.testbit (N.ldiff f CLIP_FORWARD) 3 = false /\ N.testbit (N.ldiff f CLIP_FORWARD) 2 = N.testbit f 2.
Proof. rewrite !N.ldiff_spec. simpl. rewrite andb_false_r, andb_true_r. auto. Qed.

Lemma visit_if_spec fwd l l' : visit_if_possible fwd l = Some l' ->
  ends_of l' = ends_of l /\ Permutation (dirs l) ((if fwd then (l_b l, l_a l) else (l_a l, l_b l)) :: dirs l').
Proof.
  unfold visit_if_possible. rewrite forward_bit, back_bit. unfold dirs.
  destruct fwd.
  - destruct (N.testbit (l_fill l) 3) eqn:B; [|discriminate]. intro H. injection H as <-. split; [reflexivity|].
    cbn [set_fill l_fill l_a l_b]. destruct (ldiff_forward (l_fill l)) as [-> ->]. rewrite app_nil_r.
    destruct (N.testbit (l_fill l) 2); simpl; [apply perm_swap|apply Permutation_refl].
  - destruct (N.testbit (l_fill l) 2) eqn:B; [|discriminate]. intro H. injection H as <-. split; [reflexivity|].
    cbn [set_fill l_fill l_a l_b]. destruct (ldiff_back (l_fill l)) as [-> ->]. apply Permutation_refl.
Qed.
Lemma visit_start_spec l out l' : (N.testbit (l_fill l) 2 || N.testbit (l_fill l) 3) = true -> visit_start l = (out, l') ->
  ends_of l' = ends_of l /\ Permutation (dirs l) ((if out then (l_a l, l_b l) else (l_b l, l_a l)) :: dirs l').
Proof.
  unfold visit_start. rewrite back_bit. unfold dirs. intros B H. injection H as <- <-.
  destruct (N.testbit (l_fill l) 2) eqn:B2; (split; [reflexivity|]); cbn [set_fill l_fill l_a l_b].
  - destruct (ldiff_back (l_fill l)) as [-> ->]. apply Permutation_refl.
  - simpl in B. rewrite B. simpl. apply Permutation_refl.
Qed.

Section Walk.
  (** a graph: all ids are valid; node [k] has the links with an end of id [k] *)
  Variable nodes : list (list nat).
  Variable shape : list (nat * pt * nat * pt).
  Hypothesis Aid : forall i u p v q, nth_error shape i = Some (u, p, v, q) -> pt_lt p q /\ u < length nodes /\ v < length nodes.
  Hypothesis Point : forall i u p v q j u' p' v' q', nth_error shape i = Some (u, p, v, q) -> nth_error shape j = Some (u', p', v', q') ->
    (u = u' -> p = p') /\ (v = v' -> q = q') /\ (u = v' -> p = q').
  Hypothesis Node : forall k ids i, nth_error nodes k = Some ids -> In i ids ->
    exists u p v q, nth_error shape i = Some (u, p, v, q) /\ (u = k \/ v = k).

  (** the node has the point of the end *)
  Definition end_at (a : nat * pt) : Prop := exists i u p v q, nth_error shape i = Some (u, p, v, q) /\ (a = (u, p) \/ a = (v, q)).

  Lemma next_point_spec ids : forall links a out, map ends_of links = shape -> end_at a ->
    (forall i, In i ids -> exists u p v q, nth_error shape i = Some (u, p, v, q) /\ (u = fst a \/ v = fst a)) ->
    exists ob links', next_point ids links a out = Some (ob, links') /\ map ends_of links' = shape /\
      match ob with
      | None => links' = links
      | Some b => end_at b /\ Permutation (left_dirs links) ((if out then (snd a, snd b) else (snd b, snd a)) :: left_dirs links')
      end.
  Proof.
    induction ids as [|i ids IH]; intros links a out E At In_; cbn [next_point]; [exists None, links; auto|].
    destruct (In_ i (or_introl eq_refl)) as (u & p & v & q & Hi & Ha).
    assert (exists l, nth_error links i = Some l /\ ends_of l = (u, p, v, q)) as (l & Hl & El).
    { rewrite <- E in Hi. rewrite nth_error_map in Hi. destruct (nth_error links i) as [l|]; [|discriminate]. exists l. split; auto. cbn [option_map] in Hi. congruence. }
    rewrite Hl. set (b := other_end l (fst a)).
    unfold ends_of in El. injection El as E1 E2 E3 E4.
    pose proof (Aid _ _ _ _ _ Hi) as (Lpq & _ & _).
    destruct At as (j & u' & p' & v' & q' & Hj & Ej).
    pose proof (Point _ _ _ _ _ _ _ _ _ _ Hi Hj) as (P1 & P2 & P3).
    pose proof (Point _ _ _ _ _ _ _ _ _ _ Hj Hi) as (P1' & P2' & P3').
    assert (B : (fst a = u /\ snd a = p /\ b = (v, q)) \/ (fst a <> u /\ fst a = v /\ snd a = q /\ b = (u, p))).
    { unfold b, other_end. rewrite E1, E2, E3, E4. destruct (Nat.eqb_spec u (fst a)) as [Hu|Hu].
      - left. split; auto. split; auto. destruct Ej as [->| ->]; simpl in *; [rewrite P1; auto|rewrite P3; auto].
      - right. split; auto. destruct Ha as [Ha|Ha]; [congruence|]. split; auto. split; auto.
        destruct Ej as [->| ->]; simpl in *; [rewrite P3'; auto|rewrite P2; auto]. }
    destruct (visit_if_possible (Bool.eqb out (pt_ltb (snd b) (snd a))) l) as [l'|] eqn:V.
    - apply visit_if_spec in V as [V1 V2]. exists (Some b), (upd i (fun _ => l') links). split; [reflexivity|].
      split; [rewrite (upd_ends i l l'); auto|]. split.
      + exists i, u, p, v, q. split; auto. destruct B as [(_ & _ & ->)|(_ & _ & _ & ->)]; auto.
      + apply (upd_left i l l' links [_] Hl). cbn [app].
        replace (if out then (snd a, snd b) else (snd b, snd a)) with
          (if Bool.eqb out (pt_ltb (snd b) (snd a)) then (l_b l, l_a l) else (l_a l, l_b l)); auto.
        rewrite E2, E4. destruct B as [(_ & -> & ->)|(_ & _ & -> & ->)]; simpl.
        * replace (pt_ltb q p) with false; [destruct out; reflexivity|]. symmetry. destruct (pt_ltb q p) eqn:X; auto.
          apply pt_ltb_lt in X. exfalso. eapply pt_lt_irrefl, pt_lt_trans; eauto.
        * replace (pt_ltb p q) with true; [destruct out; reflexivity|]. symmetry. apply pt_ltb_lt. auto.
    - apply IH; auto.
      + exists j, u', p', v', q'. auto.
      + intros k Hk. apply In_. right. auto.
  Qed.

  Lemma follow_spec fuel : forall links a out, map ends_of links = shape -> end_at a -> length (left_dirs links) < fuel ->
    exists ps links', follow nodes fuel links a out = Some (ps, links') /\ map ends_of links' = shape /\
      Permutation (left_dirs links) ((if out then steps (snd a :: ps) else map flip (steps (snd a :: ps))) ++ left_dirs links').
  Proof.
    induction fuel as [|fuel IH]; intros links a out E At L; [lia|]. cbn [follow].
    assert (Fa : fst a < length nodes).
    { destruct At as (i & u & p & v & q & Hi & [->| ->]); simpl; apply (Aid _ _ _ _ _ Hi). }
    destruct (nth_error nodes (fst a)) as [ids|] eqn:Hn; [|apply nth_error_None in Hn; lia].
    destruct (next_point_spec ids links a out E At) as (ob & links' & N & E' & P); [intros i Hi; eapply Node; eauto|].
    rewrite N. destruct ob as [b|].
    - destruct P as [Ab P].
      assert (Len := Permutation_length P). simpl in Len.
      destruct (IH links' b out E' Ab) as (ps & links2 & F & E2 & P2); [lia|]. rewrite F.
      exists (snd b :: ps), links2. split; auto. split; auto. rewrite P, P2, steps_cons. destruct out; reflexivity.
    - subst links'. exists [], links. split; auto. split; auto. destruct out; reflexivity.
  Qed.

  Theorem clip_loop_spec fuel : forall k links, map ends_of links = shape -> (length links - k) + length (left_dirs links) < fuel ->
    left_dirs (firstn k links) = [] ->
    exists paths, clip_loop nodes fuel k links = Some paths /\ Permutation (flat_map steps paths) (left_dirs links) /\
      Forall (fun path => 2 <= length path) paths.
  Proof.
    induction fuel as [|fuel IH]; intros k links E L F; [lia|]. cbn [clip_loop].
    destruct (nth_error links k) as [l|] eqn:Hk.
    - assert (Lk : k < length links) by (apply nth_error_Some; congruence).
      assert (Skip : firstn (S k) links = firstn k links ++ [l]).
      { clear - Hk. revert k Hk. induction links as [|x ls IH]; intros [|k] H; try discriminate; simpl in *; [congruence|]. f_equal. auto. }
      rewrite all_bits. destruct (N.testbit (l_fill l) 2 || N.testbit (l_fill l) 3) eqn:B; simpl negb; cbv iota.
      + destruct (visit_start l) as [out l'] eqn:V. apply visit_start_spec in V as [V1 V2]; auto.
        assert (E1 : map ends_of (upd k (fun _ => l') links) = shape) by (rewrite (upd_ends k l l'); auto).
        pose proof (upd_left k l l' links [_] Hk V2) as P1. cbn [app] in P1.
        assert (At : end_at (l_bid l, l_b l)).
        { exists k, (l_aid l), (l_a l), (l_bid l), (l_b l). split; auto. rewrite <- E, nth_error_map, Hk. reflexivity. }
        assert (Len1 := Permutation_length P1). simpl in Len1.
        pose proof (left_length links) as LL.
        destruct (follow_spec (S (2 * length links)) _ _ out E1 At) as (ps & links2 & F2 & E2 & P2).
        { lia. }
        cbv beta in *. rewrite F2. cbn [snd] in P2.
        assert (Len2 := Permutation_length P2). rewrite app_length in Len2.
        assert (Hlen : length links2 = length links) by (rewrite <- (map_length ends_of links2), E2, <- E, map_length; auto).
        assert (F3 : left_dirs (firstn k links2) = []).
        { destruct (left_dirs (firstn k links2)) as [|e r] eqn:X; auto. exfalso.
          (* the walk only removes directions *)
          assert (Mono : forall fuel links a out ps links', follow nodes fuel links a out = Some (ps, links') ->
             forall i l', nth_error links' i = Some l' -> exists l, nth_error links i = Some l /\ incl (dirs l') (dirs l)).
          { clear. induction fuel as [|fuel IH]; intros links a out ps links'; cbn [follow]; [discriminate|].
            destruct (nth_error nodes (fst a)) as [ids|]; [|discriminate].
            assert (K : forall ids links ob links', next_point ids links a out = Some (ob, links') ->
               forall i l', nth_error links' i = Some l' -> exists l, nth_error links i = Some l /\ incl (dirs l') (dirs l)).
            { clear. induction ids as [|j ids IH]; intros links ob links'; cbn [next_point].
              - intro H. injection H as <- <-. intros i l' H. exists l'. split; auto. intro. auto.
              - destruct (nth_error links j) as [l|] eqn:Hl; [|discriminate].
                destruct (visit_if_possible _ l) as [l1|] eqn:V; [|apply IH].
                intro H. injection H as <- <-. intros i l' H.
                apply visit_if_spec in V as [_ V]. clear IH.
                revert j i Hl H. induction links as [|y ls IHl]; intros [|j] [|i] Hl H; try discriminate; simpl in *.
                + injection Hl as ->. injection H as <-. exists l. split; auto. intros z Hz. eapply Permutation_in; [apply Permutation_sym; exact V|]. right. auto.
                + exists l'. split; auto. intro. auto.
                + exists l'. split; auto. intro. auto.
                + eapply IHl; eauto. }
            destruct (next_point ids links a out) as [[[b|] links1]|] eqn:N; [| |discriminate].
            - destruct (follow nodes fuel links1 b out) as [[ps1 links2]|] eqn:F; [|discriminate].
              intro H. injection H as <- <-. intros i l' H.
              destruct (IH _ _ _ _ _ F i l' H) as (l1 & H1 & I1).
              destruct (K _ _ _ _ N i l1 H1) as (l2 & H2 & I2). exists l2. split; auto. intros z Hz. auto.
            - intro H. injection H as <- <-. intros i l' H. eapply K; eauto. }
          assert (Ie : In e (left_dirs (firstn k links2))) by (rewrite X; left; auto).
          unfold left_dirs in Ie. apply in_flat_map in Ie as (l2 & I2 & Ie).
          apply In_nth_error in I2 as [i Hi].
          assert (Li : i < k).
          { assert (nth_error (firstn k links2) i <> None) by congruence. apply nth_error_Some in H. rewrite firstn_length in H. lia. }
          assert (FN : forall (A : Type) (l : list A) k i, i < k -> nth_error (firstn k l) i = nth_error l i).
          { clear. induction l as [|x l IH]; intros [|k] [|i] L; simpl; auto; try lia. apply IH. lia. }
          rewrite FN in Hi by auto.
          destruct (Mono _ _ _ _ _ _ F2 i l2 Hi) as (l3 & H3 & I3).
          assert (H4 : nth_error links i = Some l3).
          { rewrite <- H3. clear - Li. revert k i Li. induction links as [|x ls IH]; intros [|k] [|i] L; simpl; auto; try lia. apply IH. lia. }
          rewrite <- (FN _ links k i Li) in H4. apply nth_error_In in H4.
          assert (In e (left_dirs (firstn k links))) by (apply in_flat_map; eauto). rewrite F in H. destruct H. }
        destruct (IH k links2 E2) as (paths & C & P3 & Len3); [|auto|].
        { lia. }
        rewrite C. eexists. split; [reflexivity|]. split.
        * cbn [flat_map]. rewrite P3, P1, P2.
          destruct out.
          -- rewrite steps_cons. reflexivity.
          -- rewrite steps_rev. rewrite <- Permutation_rev. rewrite steps_cons. reflexivity.
        * constructor; auto. destruct out; [|rewrite rev_length]; simpl; lia.
      + destruct (IH (S k) links E) as (paths & C & P & Len); [lia| |].
        * rewrite Skip. unfold left_dirs. rewrite flat_map_app. fold (left_dirs (firstn k links)). rewrite F. simpl.
          unfold dirs. apply orb_false_iff in B as [-> ->]. reflexivity.
        * exists paths. auto.
    - exists []. split; auto. split; auto. apply nth_error_None in Hk. rewrite firstn_all2 in F by lia. rewrite F. reflexivity.
  Qed.
End Walk.

(** ** The walk over a string graph *)
Theorem clip_lines_spec links ends :
  StronglySorted (fun l m => pt_leb (l_a l) (l_a m) = true) links ->
  Forall (fun l => pt_lt (l_a l) (l_b l)) links ->
  ends_ok links ends ->
  exists g out, string_graph links ends = Some g /\ into_clip_string_lines g = Some out /\
    Permutation (flat_map steps out) (left_dirs links) /\ Forall (fun path => 2 <= length path) out.
Proof.
  intros S W E. destruct (graph_spec links ends S W E) as (g & pts & G & O).
  unfold string_graph. rewrite G. simpl. eexists. 
  set (nodes := map node_links (g_nodes g)).
  assert (Sh : forall i u p v q, nth_error (map ends_of (g_links g)) i = Some (u, p, v, q) ->
     nth_error pts u = Some p /\ nth_error pts v = Some q /\ pt_lt p q /\ exists l, nth_error links i = Some l /\ l_a l = p /\ l_b l = q).
  { intros i u p v q H. rewrite nth_error_map in H. destruct (nth_error (g_links g) i) as [l'|] eqn:Hl'; [|discriminate].
    injection H as <- <- <- <-.
    destruct (nth_error links i) as [l|] eqn:Hl.
    - destruct (go_link _ _ _ O i l Hl) as (l2 & H2 & A & B & _ & C & D). assert (l2 = l') by congruence. subst l2.
      rewrite A, B. repeat split; auto.
      + rewrite Forall_forall in W. apply W. eapply nth_error_In; eauto.
      + exists l. auto.
    - exfalso. apply nth_error_None in Hl. rewrite <- (go_len _ _ _ O) in Hl. assert (nth_error (g_links g) i <> None) by congruence.
      apply nth_error_Some in H. lia. }
  assert (NL : length nodes = length pts) by (unfold nodes; rewrite map_length; apply (go_nlen _ _ _ O)).
  assert (Lt_ : forall u p, nth_error pts u = Some p -> u < length nodes).
  { intros u p H. rewrite NL. apply nth_error_Some. congruence. }
  destruct (clip_loop_spec nodes (map ends_of (g_links g))) with (fuel := Datatypes.S (3 * length (g_links g))) (k := 0) (links := g_links g)
    as (out & H & P & L); auto.
  - intros i u p v q H. apply Sh in H as (A & B & C & _). split; auto. split; eapply Lt_; eauto.
  - intros i u p v q j u' p' v' q' H H'. apply Sh in H as (A & B & _). apply Sh in H' as (A' & B' & _).
    repeat split; intro; subst; congruence.
  - intros k ids i H I. unfold nodes in H. rewrite nth_error_map in H. destruct (nth_error (g_nodes g) k) as [n|] eqn:Hn; [|discriminate].
    injection H as <-.
    destruct (nth_error pts k) as [v|] eqn:Hv.
    + destruct (go_node _ _ _ O k n v Hn Hv) as [_ XX]. destruct (proj1 (XX i) I) as (l & Hl & EE).
      destruct (go_link _ _ _ O i l Hl) as (l2 & H2 & A & B & _ & C & D).
      exists (l_aid l2), (l_a l2), (l_bid l2), (l_b l2). split; [rewrite nth_error_map, H2; reflexivity|].
      assert (ND : NoDup pts).
      { pose proof (go_sorted _ _ _ O) as SS. clear - SS. induction SS as [|x l SS IH F]; constructor; auto. intro I.
        rewrite Forall_forall in F. eapply pt_lt_irrefl; eauto. }
      rewrite NoDup_nth_error in ND.
      destruct EE as [EE|EE]; [left|right]; (apply ND; [apply nth_error_Some; congruence|congruence]).
    + apply nth_error_None in Hv. rewrite <- (go_nlen _ _ _ O) in Hv. assert (nth_error (g_nodes g) k <> None) by congruence.
      apply nth_error_Some in H. lia.
  - pose proof (left_length (g_links g)). lia.
  - exists out. split; auto. split; [exact H|]. split; auto. rewrite P.
    assert (LD : left_dirs (g_links g) = left_dirs links); [|rewrite LD; auto].
    unfold left_dirs. pose proof (go_len _ _ _ O) as GL. pose proof (go_link _ _ _ O) as GK. clear - GL GK.
    revert links GL GK. generalize (g_links g). intro gl. induction gl as [|x gl IH]; intros [|y links] GL GK; try discriminate; auto.
    cbn [flat_map]. f_equal.
    + destruct (GK 0 y eq_refl) as (l' & H & A & B & C & _). simpl in H. injection H as <-. unfold dirs. rewrite A, B, C. reflexivity.
    + apply IH; auto. intros i l H. apply (GK (Datatypes.S i) l H).
Qed.
