(** * Proofs about [decompose_contours]. *)
From Verif Require Import Base Spec QLib ModelSegm ModelFill FillProofs ModelLoops LoopProofs ModelDivide.
Open Scope nat_scope.

Notation occ l x := (count_occ pt_eq_dec l x).

(** ** The anchors are the vertices visited more than once (if the greatest one is not among them) *)
Definition same (e f : idpt) : bool := pt_eqb (snd f) (snd e).
Lemma anchors_sub l : forall p0 run, sub (anchors_go p0 run l) (run ++ l).
Proof.
  induction l as [|e r IH]; intros p0 run; simpl; [constructor|]. destruct (pt_eqb p0 (snd e)).
  - replace (run ++ e :: r) with ((run ++ [e]) ++ r) by (rewrite <- app_assoc; auto). apply IH.
  - apply sub_app; [destruct (1 <? length run); [apply sub_refl|constructor]|]. apply (IH (snd e) [e]).
Qed.
Lemma pt_leb_nlt p q : pt_leb p q = true -> ~ pt_lt q p.
Proof. unfold pt_leb, pt_ltb, pt_eqb, pt_lt. lia. Qed.
Lemma anchors_go_in l : forall p0 run e, run <> [] -> (forall f, In f run -> snd f = p0) ->
  StronglySorted (fun a b => pt_leb (snd a) (snd b) = true) (run ++ l) ->
  (In e (anchors_go p0 run l) <-> In e (run ++ l) /\ (exists big, In big l /\ pt_lt (snd e) (snd big)) /\ 2 <= length (filter (same e) (run ++ l))).
Proof.
  induction l as [|e0 r IH]; intros p0 run e Ne Hr Ss; simpl.
  - split; [tauto|]. intros (_ & (b & [] & _) & _).
  - assert (Low : forall f, In f (run ++ e0 :: r) -> ~ pt_lt (snd f) p0).
    { destruct run as [|r0 run]; [congruence|]. intros f [<-|I]; [rewrite (Hr r0) by (simpl; auto); apply pt_lt_irrefl|].
      simpl in Ss. inversion Ss as [|? ? _ Fo]; subst. rewrite Forall_forall in Fo. apply Fo in I. rewrite (Hr r0) in I by (simpl; auto). apply pt_leb_nlt; auto. }
    destruct (pt_eqb p0 (snd e0)) eqn:E.
    + apply pt_eqb_eq in E. replace (run ++ e0 :: r) with ((run ++ [e0]) ++ r) in * by (rewrite <- app_assoc; auto).
      rewrite (IH p0 (run ++ [e0]) e); auto.
      * split; intros (A & (b & Ib & Lb) & C); (split; [auto|]; split; auto).
        -- exists b. split; auto.
        -- exists b. split; auto. destruct Ib as [<-|Ib]; auto. exfalso. apply (Low e); auto. rewrite E. exact Lb.
      * destruct run; discriminate.
      * intros f I. apply in_app_iff in I as [I|[<-|[]]]; auto.
    + assert (Ss2 : StronglySorted (fun a b => pt_leb (snd a) (snd b) = true) (e0 :: r)) by (clear - Ss; induction run; auto; inversion Ss; auto).
      assert (N0 : snd e0 <> p0) by (intro X; rewrite X, pt_eqb_refl in E; discriminate).
      assert (Up : forall f, In f (e0 :: r) -> pt_lt p0 (snd f)).
      { assert (L0 : pt_lt p0 (snd e0)).
        { assert (X : ~ pt_lt (snd e0) p0) by (apply Low; apply in_app_iff; simpl; auto). destruct (pt_cmp p0 (snd e0)) eqn:Ec.
          - apply pt_cmp_eq in Ec. congruence.
          - apply pt_cmp_lt in Ec. auto.
          - apply pt_cmp_gt in Ec. tauto. }
        intros f [<-|I]; auto. inversion Ss2 as [|? ? _ Fo]; subst. rewrite Forall_forall in Fo. apply Fo in I. apply pt_leb_nlt in I.
        destruct (pt_cmp p0 (snd f)) eqn:Ec; [apply pt_cmp_eq in Ec; rewrite <- Ec in I; tauto|apply pt_cmp_lt in Ec; auto|apply pt_cmp_gt in Ec].
        exfalso. apply I. eapply pt_lt_trans; eauto. }
      assert (IHe := IH (snd e0) [e0] e ltac:(discriminate) ltac:(intros f [<-|[]]; auto) Ss2). simpl app in IHe.
      assert (F0 : forall k, (forall f, In f k -> snd f <> snd e) -> filter (same e) k = []).
      { induction k as [|f k IHk]; auto. intro Hk. simpl. unfold same at 1. destruct (pt_eqb (snd f) (snd e)) eqn:Ef; [apply pt_eqb_eq in Ef; destruct (Hk f (or_introl eq_refl) Ef)|]. apply IHk. intros; apply Hk; simpl; auto. }
      rewrite in_app_iff, IHe, filter_app, app_length. split.
      * intros [I|(I & (b & Ib & Lb) & C)].
        -- revert I. destruct (1 <? length run) eqn:L; intro I; [|simpl in I; tauto]. apply Nat.ltb_lt in L. split; [apply in_app_iff; auto|]. split.
           ++ exists e0. split; auto. rewrite (Hr e I). apply Up. simpl; auto.
           ++ assert (Fa : filter (same e) run = run).
              { assert (X : forall k, (forall f, In f k -> snd f = p0) -> filter (same e) k = k).
                { induction k as [|f k IHk]; intro Hk; auto. simpl. unfold same at 1. rewrite (Hk f), (Hr e I), pt_eqb_refl by (simpl; auto). f_equal. apply IHk. intros; apply Hk; simpl; auto. }
                apply X; auto. }
              rewrite Fa. lia.
        -- split; [apply in_app_iff; auto|]. split; [exists b; auto|]. lia.
      * intros (I & (b & Ib & Lb) & C). apply in_app_iff in I as [I|I].
        -- left. assert (Z : filter (same e) (e0 :: r) = []).
           { apply F0. intros f If X. apply Up in If. rewrite X, (Hr e I) in If. destruct (pt_lt_irrefl _ If). }
           rewrite Z in C. simpl in C. assert (length (filter (same e) run) <= length run) by (clear; induction run as [|f k IHk]; simpl; auto; destruct (same e f); simpl; lia).
           destruct (Nat.ltb_spec 1 (length run)); [auto|lia].
        -- right. assert (Z : filter (same e) run = []).
           { apply F0. intros f If X. rewrite (Hr f If) in X. apply Up in I. rewrite <- X in I. destruct (pt_lt_irrefl _ I). }
           rewrite Z in C. split; auto. split; auto. exists b. split; auto. destruct Ib as [<-|Ib]; auto.
           exfalso. destruct I as [<-|I]; [destruct (pt_lt_irrefl _ Lb)|]. inversion Ss2 as [|? ? _ Fo]; subst. rewrite Forall_forall in Fo. apply Fo in I. apply (pt_leb_nlt _ _ I). auto.
Qed.

Lemma strict_eq (a b : list idpt) : StronglySorted (fun x y => fst x < fst y) a -> StronglySorted (fun x y => fst x < fst y) b ->
  (forall x, In x a <-> In x b) -> a = b.
Proof.
  revert b. induction a as [|x a IH]; intros [|y b] Sa Sb E; auto.
  - destruct (proj2 (E y)); simpl; auto.
  - destruct (proj1 (E x)); simpl; auto.
  - inversion Sa as [|? ? Sa' Fa]; subst. inversion Sb as [|? ? Sb' Fb]; subst. rewrite Forall_forall in Fa, Fb.
    assert (x = y).
    { destruct (proj1 (E x) (or_introl eq_refl)) as [|I]; auto. destruct (proj2 (E y) (or_introl eq_refl)) as [|I']; auto. apply Fb in I. apply Fa in I'. lia. }
    subst y. f_equal. apply IH; auto. intro z. split; intro I.
    + destruct (proj1 (E z) (or_intror I)) as [<-|]; auto. apply Fa in I. lia.
    + destruct (proj2 (E z) (or_intror I)) as [<-|]; auto. apply Fb in I. lia.
Qed.
Lemma enum_strict (l : list pt) : StronglySorted (fun x y : idpt => fst x < fst y) (enum l).
Proof.
  unfold enum. generalize 0. induction l as [|x l IH]; intro n; simpl; constructor; auto. apply Forall_forall. intros [i y] I. apply in_combine_l in I. apply in_seq in I. simpl. lia.
Qed.
Lemma filter_strict (f : idpt -> bool) l : StronglySorted (fun x y : idpt => fst x < fst y) l -> StronglySorted (fun x y : idpt => fst x < fst y) (filter f l).
Proof. induction 1 as [|x l S IH F]; simpl; [constructor|]. destruct (f x); auto. constructor; auto. rewrite Forall_forall in *. intros y I. apply filter_In in I. apply F. tauto. Qed.
Lemma occ_filter (l : list pt) e : length (filter (same e) (enum l)) = occ l (snd e).
Proof.
  unfold enum. generalize 0. induction l as [|x l IH]; intro n; simpl; auto. unfold same at 1. simpl. destruct (pt_eq_dec x (snd e)) as [->|N].
  - rewrite pt_eqb_refl. simpl. rewrite IH. auto.
  - destruct (pt_eqb x (snd e)) eqn:E; [apply pt_eqb_eq in E; congruence|]. apply IH.
Qed.
Lemma filter_perm_length {A} (f : A -> bool) l m : Permutation l m -> length (filter f l) = length (filter f m).
Proof. induction 1; simpl; auto; [destruct (f x); simpl; auto|destruct (f x), (f y); auto|congruence]. Qed.
Lemma sub_nodup {A} (a b : list A) : sub a b -> NoDup b -> NoDup a.
Proof. induction 1; intro N; [constructor| |]; inversion N; subst; auto. constructor; auto. intro. apply H2. eapply sub_in; eauto. Qed.

Definition rep (l : list pt) (e : idpt) : bool := 2 <=? occ l (snd e).
Lemma anchors_rep l : (forall p, 2 <= occ l p -> exists q, In q l /\ pt_lt p q) -> anchors_of_contour l = filter (rep l) (enum l).
Proof.
  intro Mx. unfold anchors_of_contour.
  set (so := isort by_point_leb (enum l)). assert (Pm : Permutation so (enum l)) by apply isort_perm.
  assert (Ss : StronglySorted (fun a b => pt_leb (snd a) (snd b) = true) so).
  { assert (X : StronglySorted (fun a b => by_point_leb a b = true) so).
    { apply isort_sorted; unfold by_point_leb.
      - intros x y. destruct (pt_cmp (snd x) (snd y)) eqn:E; auto.
        + apply pt_cmp_eq in E. rewrite E. replace (pt_cmp (snd y) (snd y)) with Eq by (symmetry; apply pt_cmp_eq; auto). destruct (Nat.leb_spec (fst x) (fst y)); auto. right. apply Nat.leb_le. lia.
        + right. apply pt_cmp_gt in E. replace (pt_cmp (snd y) (snd x)) with Lt by (symmetry; apply pt_cmp_lt; auto). auto.
      - intros x y z. destruct (pt_cmp (snd x) (snd y)) eqn:E; destruct (pt_cmp (snd y) (snd z)) eqn:E'; try discriminate.
        + apply pt_cmp_eq in E, E'. rewrite E, E'. replace (pt_cmp (snd z) (snd z)) with Eq by (symmetry; apply pt_cmp_eq; auto). rewrite !Nat.leb_le. lia.
        + apply pt_cmp_eq in E. rewrite E, E'. auto.
        + apply pt_cmp_eq in E'. rewrite <- E', E. auto.
        + apply pt_cmp_lt in E, E'. replace (pt_cmp (snd x) (snd z)) with Lt by (symmetry; apply pt_cmp_lt; eapply pt_lt_trans; eauto). auto. }
    revert X. apply SS_impl_in. intros x y _ _. unfold by_point_leb. destruct (pt_cmp (snd x) (snd y)) eqn:E; try discriminate; intros _.
    - apply pt_cmp_eq in E. rewrite E. apply pt_leb_refl.
    - apply pt_cmp_lt in E. unfold pt_leb. apply pt_ltb_lt in E. rewrite E. auto. }
  assert (Nd : NoDup so).
  { apply (Permutation_NoDup (Permutation_sym Pm)). apply (NoDup_map_inv fst). rewrite enum_fst. apply seq_NoDup. }
  destruct so as [|e0 r] eqn:Eso.
  { apply Permutation_nil in Pm. rewrite Pm. auto. }
  assert (Nf : NoDup (map fst (anchors_go (snd e0) [e0] r))).
  { assert (X : NoDup (map fst (e0 :: r))) by (apply (Permutation_NoDup (Permutation_sym (Permutation_map fst Pm))); rewrite enum_fst; apply seq_NoDup).
    assert (S : sub (map fst (anchors_go (snd e0) [e0] r)) (map fst ([e0] ++ r))).
    { generalize (anchors_sub r (snd e0) [e0]). generalize (anchors_go (snd e0) [e0] r) ([e0] ++ r). induction 1; simpl; constructor; auto. }
    eapply sub_nodup; eauto. }
  apply strict_eq.
  - set (an := anchors_go (snd e0) [e0] r) in *. assert (X : StronglySorted (fun x y => by_id_leb x y = true) (isort by_id_leb an)).
    { apply isort_sorted; unfold by_id_leb; [intros x y; rewrite !Nat.leb_le; lia|intros x y z; rewrite !Nat.leb_le; lia]. }
    assert (Y : NoDup (map fst (isort by_id_leb an))) by (apply (Permutation_NoDup (Permutation_map fst (Permutation_sym (isort_perm by_id_leb an)))); auto).
    clear - X Y. induction X as [|x l S IH F]; constructor; simpl in Y; inversion Y; subst; auto. rewrite Forall_forall in *. intros y I. specialize (F y I). unfold by_id_leb in F. apply Nat.leb_le in F.
    assert (fst x <> fst y) by (intro Q; apply H1; rewrite Q; apply in_map; auto). lia.
  - apply filter_strict, enum_strict.
  - intro x. rewrite isort_in, (anchors_go_in r (snd e0) [e0] x) by (auto; try discriminate; intros f [<-|[]]; auto).
    simpl app. rewrite (filter_perm_length _ _ _ Pm), occ_filter, filter_In. unfold rep. rewrite Nat.leb_le. split.
    + intros (I & _ & C). split; auto. eapply Permutation_in; eauto.
    + intros (I & C). split; [eapply Permutation_in; [apply Permutation_sym; eauto|auto]|]. split; auto.
      destruct (Mx (snd x) C) as (q & Iq & L). apply In_nth_error in Iq as (k & Ek). assert (Ie : In (k, q) (enum l)) by (apply enum_nth; auto).
      apply (Permutation_in _ (Permutation_sym Pm)) in Ie. destruct Ie as [E|Ie]; [|exists (k, q); auto].
      exfalso. assert (Ix : In x (e0 :: r)) by (eapply Permutation_in; [apply Permutation_sym; eauto|auto]). rewrite E in Ss, Ix. destruct Ix as [<-|Ix]; [destruct (pt_lt_irrefl _ L)|].
      inversion Ss as [|? ? _ Fo]; subst. rewrite Forall_forall in Fo. apply Fo in Ix. apply (pt_leb_nlt _ _ Ix). auto.
Qed.

(** ** The loop over the anchors *)
Definition enumf (n : nat) (l : list pt) : list (nat * pt) := combine (seq n (length l)) l.
Definition tailp (l : list pt) (n : nat) (s : sub_path) : list pt := firstn (n - sp_last s) (skipn (sp_last s) l).
Definition flat (queue : list sub_path) : list pt := concat (map sp_path (rev queue)).

Lemma flat_cons s q : flat (s :: q) = flat q ++ sp_path s.
Proof. unfold flat. simpl rev. rewrite map_app, concat_app. simpl. rewrite app_nil_r. auto. Qed.
Lemma tail_snoc (A : list pt) x post last : last <= length A ->
  firstn (S (length A) - last) (skipn last (A ++ x :: post)) = firstn (length A - last) (skipn last (A ++ x :: post)) ++ [x].
Proof.
  intro L. rewrite skipn_app. replace (last - length A) with 0 by lia. simpl skipn at 2 4.
  assert (E : length (skipn last A) = length A - last) by apply skipn_length.
  rewrite !firstn_app, E. replace (S (length A) - last - (length A - last)) with 1 by lia. rewrite Nat.sub_diag. cbn [firstn]. rewrite app_nil_r.
  rewrite (firstn_all2 (n := S (length A) - last)) by (rewrite E; lia). rewrite (firstn_all2 (n := length A - last)) by (rewrite E; lia). auto.
Qed.
Lemma sub_cons_in {A} (x : A) a b : In x a -> sub [x] (a ++ b).
Proof. intro. apply in_sub, in_app_iff. auto. Qed.
Lemma occ_app l m x : occ (l ++ m) x = occ l x + occ m x.
Proof. apply count_occ_app. Qed.
Lemma occ_in l x : In x l <-> 1 <= occ l x.
Proof. rewrite (count_occ_In pt_eq_dec). lia. Qed.

Section Loop.
Variables (l pre : list pt) (x0 : pt).
Hypothesis Nc : noncrossing l.
Hypothesis Two : forall x, x <> x0 -> occ l x <= 2.
Hypothesis Pre : forall x, In x pre -> occ l x = 1.

Record kinv (w post : list pt) (queue : list sub_path) (s : sub_path) (rest : list sub_path) (contours : list (list pt)) : Prop := {
  k_l : l = pre ++ w ++ post;
  k_q : queue = s :: rest;
  k_last : sp_last s <= length (pre ++ w);
  k_nodup : NoDup (flat queue ++ tailp l (length (pre ++ w)) s);
  k_hd : hd_error (flat queue ++ tailp l (length (pre ++ w)) s) = Some x0;
  k_hdw : hd_error w = Some x0;
  k_lst : forall d, last (flat queue ++ tailp l (length (pre ++ w)) s) d = last w d;
  k_edges : Permutation (steps w) (steps (flat queue ++ tailp l (length (pre ++ w)) s) ++ concat (map edges contours));
  k_sub : sub (flat queue ++ tailp l (length (pre ++ w)) s) w;
  k_gone : forall x, In x w -> ~ In x (flat queue ++ tailp l (length (pre ++ w)) s) -> exists P, P <> x /\ sub [P; x; P] w;
  k_node : forall x, In x (flat queue ++ tailp l (length (pre ++ w)) s) -> In x post -> In x (map sp_node queue);
  k_later : forall t, In t (removelast queue) -> In (sp_node t) post;
  k_path : forall t, In t queue -> exists r, sp_path t = sp_node t :: r;
  k_done : Forall (@NoDup pt) contours }.

Lemma path_in_flat t q : In t q -> (exists r, sp_path t = sp_node t :: r) -> In (sp_node t) (flat q).
Proof.
  intros I (r & E). unfold flat. apply in_concat. exists (sp_path t). split; [apply in_map; apply -> in_rev; auto|]. rewrite E. simpl. auto.
Qed.
Lemma removelast_cons {A} (a : A) q : q <> [] -> removelast (a :: q) = a :: removelast q.
Proof. destruct q; [congruence|auto]. Qed.
Lemma in_removelast {A} (a : A) q : In a (removelast q) -> In a q.
Proof. induction q as [|b [|c q] IH]; simpl in *; tauto. Qed.

(** pushing [x] on the path *)
Lemma push_common w F x post contours : l = pre ++ w ++ x :: post -> F <> [] -> ~ In x w -> NoDup F -> hd_error F = Some x0 -> hd_error w = Some x0 ->
  (forall d, last F d = last w d) -> Permutation (steps w) (steps F ++ concat (map edges contours)) -> sub F w ->
  NoDup (F ++ [x]) /\ hd_error (F ++ [x]) = Some x0 /\ hd_error (w ++ [x]) = Some x0 /\ (forall d, last (F ++ [x]) d = last (w ++ [x]) d) /\
  Permutation (steps (w ++ [x])) (steps (F ++ [x]) ++ concat (map edges contours)) /\ sub (F ++ [x]) (w ++ [x]).
Proof.
  intros El NF Nx Nd HF Hw Lst Pe Su. assert (Nw : w <> []) by (destruct w; discriminate).
  assert (NxF : ~ In x F) by (intro I; apply Nx; eapply sub_in; eauto).
  split; [|split; [|split; [|split; [|split]]]].
  - apply (Permutation_NoDup (Permutation_cons_append F x)). constructor; auto.
  - destruct F; [congruence|exact HF].
  - destruct w; [congruence|exact Hw].
  - intro d. rewrite !last_cons_snoc. auto.
  - rewrite (steps_snoc w x x Nw), (steps_snoc F x x NF), Lst, Pe. rewrite <- !app_assoc. apply Permutation_app_head. apply Permutation_app_comm.
  - apply sub_app; auto. apply sub_refl.
Qed.

Lemma divide_loop_spec post : forall w queue s rest contours, kinv w post queue s rest contours ->
  exists queue' s' rest' contours', divide_loop l (filter (rep l) (enumf (length (pre ++ w)) post)) queue contours = Some (queue', contours') /\
    kinv (w ++ post) [] queue' s' rest' contours'.
Proof.
  induction post as [|x post IH]; intros w queue s rest contours K.
  { exists queue, s, rest, contours. rewrite app_nil_r. split; auto. }
  assert (El := k_l _ _ _ _ _ _ K). set (n := length (pre ++ w)) in *.
  assert (En : n = length (pre ++ w)) by reflexivity.
  assert (El2 : l = (pre ++ w) ++ x :: post) by (rewrite <- app_assoc; auto).
  assert (El3 : l = pre ++ (w ++ [x]) ++ post) by (rewrite El; rewrite <- !app_assoc; auto).
  assert (Es : S n = length (pre ++ w ++ [x])) by (rewrite app_assoc, app_length; simpl; unfold n; lia).
  set (F := flat queue ++ tailp l n s) in *.
  assert (Eq := k_q _ _ _ _ _ _ K). assert (Nd : NoDup F) by apply (k_nodup _ _ _ _ _ _ K). assert (HF : hd_error F = Some x0) by apply (k_hd _ _ _ _ _ _ K).
  assert (Hw := k_hdw _ _ _ _ _ _ K). assert (Lst : forall d, last F d = last w d) by apply (k_lst _ _ _ _ _ _ K).
  assert (Pe : Permutation (steps w) (steps F ++ concat (map edges contours))) by apply (k_edges _ _ _ _ _ _ K).
  assert (Su : sub F w) by apply (k_sub _ _ _ _ _ _ K).
  assert (Gone : forall y, In y w -> ~ In y F -> exists P, P <> y /\ sub [P; y; P] w) by apply (k_gone _ _ _ _ _ _ K).
  assert (Node : forall y, In y F -> In y (x :: post) -> In y (map sp_node queue)) by apply (k_node _ _ _ _ _ _ K).
  assert (Later := k_later _ _ _ _ _ _ K). assert (Path := k_path _ _ _ _ _ _ K). assert (Done := k_done _ _ _ _ _ _ K). assert (Last : sp_last s <= n) by apply (k_last _ _ _ _ _ _ K).
  assert (NF : F <> []) by (intro Q; rewrite Q in HF; discriminate).
  assert (QF : forall t, In t queue -> In (sp_node t) F).
  { intros t I. unfold F. apply in_app_iff. left. apply path_in_flat; auto. }
  assert (Ts : tailp l (S n) s = tailp l n s ++ [x]).
  { unfold tailp. rewrite El2, En. apply tail_snoc. rewrite <- En. auto. }
  assert (Fs : flat queue ++ tailp l (S n) s = F ++ [x]) by (rewrite Ts, app_assoc; auto).
  assert (Nx : ~ In x F -> ~ In x w).
  { intros NI I. destruct (Gone x I NI) as (P & NP & Sp). apply (Nc P x NP). rewrite El3. change [P; x; P; x] with ([] ++ ([P; x; P] ++ [x]) ++ []).
    apply sub_app; [constructor|]. apply sub_app; [|constructor]. apply sub_app; auto. apply sub_refl. }
  unfold enumf. change (combine (seq n (length (x :: post))) (x :: post)) with ((n, x) :: enumf (S n) post). cbn [filter].
  destruct (rep l (n, x)) eqn:R.
  - (* an anchor *)
    unfold rep in R. cbn [snd] in R. apply Nat.leb_le in R.
    cbn [divide_loop]. rewrite Eq. unfold sp_join, slice. cbn [fst snd].
    assert (Ls : (sp_last s <=? n) = true) by (apply Nat.leb_le; auto). assert (Ln : (n <=? length l) = true) by (apply Nat.leb_le; rewrite El2, app_length; unfold n; lia).
    rewrite Ls, Ln. cbn [andb sp_path]. fold (tailp l n s).
    destruct (in_dec pt_eq_dec x F) as [IF|IF].
    + (* closes the loop of the top node *)
      assert (Top : sp_node s = x).
      { destruct (pt_eq_dec (sp_node s) x) as [|N]; auto. exfalso. pose proof (Node x IF (or_introl eq_refl)) as I. rewrite Eq in I. destruct I as [I|I]; [congruence|].
        apply in_map_iff in I as (t & Et & It). assert (Nr : rest <> []) by (destruct rest; [destruct It|discriminate]).
        assert (Lq : In (sp_node s) (x :: post)) by (apply Later; rewrite Eq, removelast_cons by auto; simpl; auto).
        destruct Lq as [Lq|Lq]; [congruence|].
        apply (Nc x (sp_node s)); [congruence|]. rewrite El3. change [x; sp_node s; x; sp_node s] with ([] ++ ([x; sp_node s] ++ [x]) ++ [sp_node s]).
        apply sub_app; [constructor|]. apply sub_app; [|apply in_sub; auto]. apply sub_app; [|apply sub_refl]. eapply sub_trans; [|apply Su]. unfold F. apply sub_r. rewrite Eq, flat_cons.
        change [x; sp_node s] with ([x] ++ [sp_node s]). apply sub_app.
        - apply in_sub. rewrite <- Et. apply path_in_flat; auto. apply Path. rewrite Eq. simpl; auto.
        - destruct (Path s) as (r & ->); [rewrite Eq; simpl; auto|]. repeat constructor. }
      assert (Te : pt_eqb (sp_node s) x = true) by (apply pt_eqb_eq; auto). rewrite Te.
      destruct (Path s) as (r & Er); [rewrite Eq; simpl; auto|]. rewrite Top in Er.
      assert (EF : F = flat rest ++ x :: (r ++ tailp l n s)) by (unfold F; rewrite Eq, flat_cons, Er, <- app_assoc; auto).
      set (t := r ++ tailp l n s) in *. assert (Et : sp_path s ++ tailp l n s = x :: t) by (rewrite Er; auto). rewrite Et.
      set (queue' := match rest with prev :: q => sp_shift prev (n, x) :: q | [] => [sp_start (n, x)] end).
      assert (NdF : ~ In x (flat rest) /\ ~ In x t /\ NoDup (flat rest ++ [x]) /\ NoDup (x :: t)).
      { rewrite EF in Nd. apply NoDup_remove in Nd as Nd'. destruct Nd' as [N1 N2]. rewrite in_app_iff in N2. assert (~ In x (flat rest)) by tauto. repeat split; try tauto.
        - apply (Permutation_NoDup (Permutation_cons_append (flat rest) x)). constructor; auto. clear - N1. induction (flat rest); [constructor|]. inversion N1; subst. constructor; [rewrite in_app_iff in *; tauto|auto].
        - clear - Nd. induction (flat rest); auto. inversion Nd; auto. }
      destruct NdF as (Nx1 & Nx2 & NdF & Ndt).
      assert (Tn : forall p, tailp l (S n) (sp_shift p (n, x)) = [x]).
      { intro p. unfold tailp, sp_shift. cbn [sp_last fst]. rewrite El2, En. rewrite (tail_snoc (pre ++ w) x post) by lia. rewrite Nat.sub_diag. auto. }
      assert (Q : exists s' rest', queue' = s' :: rest' /\ flat queue' ++ tailp l (S n) s' = flat rest ++ [x] /\ sp_last s' <= S n /\
                   (forall t, In t queue' -> exists r, sp_path t = sp_node t :: r) /\ (forall t, In t (removelast queue') -> In (sp_node t) post) /\
                   (forall y, In y (flat rest ++ [x]) -> In y post -> In y (map sp_node queue'))).
      { unfold queue'. destruct rest as [|prev q].
        - exists (sp_start (n, x)), []. split; auto. unfold sp_start, flat, tailp. simpl. rewrite Nat.sub_diag. simpl. split; auto. split; [lia|]. split; [|split; [tauto|]].
          + intros t' [<-|[]]. simpl. eauto.
          + auto.
        - exists (sp_shift prev (n, x)), q. split; auto. rewrite Tn. rewrite !flat_cons. split; [auto|]. split; [cbn; lia|]. split; [|split].
          + intros t' [<-|I]; [cbn; apply Path; rewrite Eq; simpl; auto|]. apply Path. rewrite Eq. simpl; auto.
          + intros t' I. assert (X : exists u, In u (removelast (prev :: q)) /\ sp_node u = sp_node t').
            { destruct q; [destruct I|]. rewrite removelast_cons in I by discriminate. destruct I as [<-|I]; [exists prev; rewrite removelast_cons by discriminate; simpl; auto|].
              exists t'. rewrite removelast_cons by discriminate. simpl; auto. }
            destruct X as (u & Iu & Eu). assert (Lt : In (sp_node u) (x :: post)) by (apply Later; rewrite Eq, removelast_cons by discriminate; simpl; auto).
            rewrite Eu in Lt. destruct Lt as [Lt|Lt]; auto. exfalso. apply Nx1. rewrite Lt, <- Eu. apply path_in_flat; [apply in_removelast; auto|]. apply Path. rewrite Eq. right. apply in_removelast; auto.
          + assert (E2 : map sp_node (sp_shift prev (n, x) :: q) = map sp_node (prev :: q)) by auto. rewrite E2. intros y Iy Ip. rewrite in_app_iff in Iy. destruct Iy as [Iy|[<-|[]]].
            * assert (I : In y (map sp_node queue)).
              { apply Node; [|simpl; auto]. unfold F. rewrite Eq, !flat_cons. rewrite !in_app_iff. rewrite in_app_iff in Iy. tauto. }
              rewrite Eq in I. destruct I as [I|I]; auto. exfalso. rewrite Top in I. subst y. apply Nx1. rewrite ?flat_cons. auto.
            * exfalso. assert (x <> x0).
              { intro X0. rewrite <- X0 in HF. rewrite EF in HF. destruct (Path prev) as (r' & E'); [rewrite Eq; simpl; auto|].
                assert (N0 : flat (prev :: q) <> []) by (rewrite flat_cons, E'; destruct (flat q); discriminate). destruct (flat (prev :: q)) as [|z fl] eqn:Ez; [congruence|]. simpl in HF. injection HF as ->. apply Nx1. simpl; auto. }
              assert (O := Two x H). rewrite El3, !occ_app in O. assert (1 <= occ w x) by (apply occ_in; eapply sub_in; eauto). apply occ_in in Ip.
              assert (occ [x] x = 1) by (simpl; destruct (pt_eq_dec x x); congruence). lia. }
      destruct Q as (s' & rest' & Eq' & Fq & L' & Path' & Later' & Node').
      destruct (IH (w ++ [x]) queue' s' rest' (contours ++ [x :: t])) as (queue2 & s2 & rest2 & contours2 & E2 & K2).
      { constructor; rewrite <- ?Es; try rewrite Fq; auto.
        - destruct (flat rest) as [|z fl] eqn:Ez; [|simpl in *]; rewrite EF in HF; simpl in *; auto.
        - destruct w; simpl in *; auto; discriminate.
        - intro d. rewrite !last_cons_snoc. auto.
        - assert (X := pop_edges w (flat rest) t contours [] x). rewrite app_nil_r in X. rewrite X; clear X.
          + rewrite map_app, concat_app. simpl. rewrite app_nil_r. apply Permutation_app_head. apply Permutation_app_comm.
          + rewrite <- EF. auto.
          + destruct w; discriminate.
          + rewrite <- EF. auto.
        - apply sub_app; [|apply sub_refl]. eapply sub_trans; [|apply Su]. rewrite EF. rewrite <- (app_nil_r (flat rest)) at 1. apply sub_app; [apply sub_refl|constructor].
        - intros y Iy Ny. destruct (in_dec pt_eq_dec y t) as [It|It].
          + exists x. split; [intro; subst; tauto|]. change [x; y; x] with ([x; y] ++ [x]). apply sub_app; [|apply sub_refl]. eapply sub_trans; [|apply Su]. rewrite EF.
            change [x; y] with ([] ++ [x; y]). apply sub_app; [constructor|]. constructor. apply in_sub; auto.
          + rewrite in_app_iff in Iy, Ny. destruct Iy as [Iy|Iy]; [|tauto]. destruct (Gone y Iy) as (P & NP & Sp).
            { rewrite EF, in_app_iff. simpl in *. tauto. }
            exists P. split; auto. apply sub_r; auto.
        - apply Forall_app. split; auto. }
      exists queue2, s2, rest2, contours2. rewrite <- app_assoc in K2. split; auto. rewrite <- E2, <- Es. reflexivity.
    + (* a vertex seen for the first time *)
      specialize (Nx IF). assert (Te : pt_eqb (sp_node s) x = false).
      { apply pt_eqb_neq. intro Q. apply IF. rewrite <- Q. apply QF. rewrite Eq. simpl; auto. }
      rewrite Te. set (s' := SubPath n (sp_node s) (sp_path s ++ tailp l n s)). set (queue' := sp_start (n, x) :: s' :: rest).
      assert (Fq : flat queue' ++ tailp l (S n) (sp_start (n, x)) = F ++ [x]).
      { unfold queue', F. rewrite Eq, !flat_cons. unfold tailp at 1. cbn [sp_start sp_last fst sp_path snd s']. rewrite Nat.sub_diag. simpl firstn. rewrite app_nil_r, <- !app_assoc. auto. }
      destruct (push_common w F x post contours) as (C1 & C2 & C3 & C4 & C5 & C6); auto.
      assert (Xp : In x post).
      { rewrite El3, !occ_app in R. assert (occ w x = 0) by (apply count_occ_not_In; auto). assert (occ pre x = 0).
        { apply count_occ_not_In. intro I. apply Pre in I. rewrite El3, !occ_app in I. lia. }
        assert (occ [x] x = 1) by (simpl; destruct (pt_eq_dec x x); congruence). apply occ_in. lia. }
      destruct (IH (w ++ [x]) queue' (sp_start (n, x)) (s' :: rest) contours) as (queue2 & s2 & rest2 & contours2 & E2 & K2).
      { constructor; rewrite <- ?Es; try rewrite Fq; auto.
        - intros y Iy Ny. rewrite in_app_iff in Iy, Ny. destruct Iy as [Iy|[<-|[]]]; [|simpl in Ny; tauto]. destruct (Gone y Iy) as (P & NP & Sp); [tauto|]. exists P. split; auto. apply sub_r; auto.
        - intros y Iy Ip. rewrite in_app_iff in Iy. destruct Iy as [Iy|[<-|[]]]; [|simpl; auto]. assert (I : In y (map sp_node queue)) by (apply Node; simpl; auto). rewrite Eq in I. simpl in *. tauto.
        - unfold queue'. intros t I. rewrite removelast_cons in I by discriminate. destruct I as [<-|I]; [cbn; auto|].
          assert (X : exists u, In u (removelast queue) /\ sp_node u = sp_node t).
          { rewrite Eq. destruct rest; [destruct I|]. rewrite removelast_cons in * by discriminate. destruct I as [<-|I]; [exists s; simpl; auto|]. exists t. simpl; auto. }
          destruct X as (u & Iu & Eu). rewrite <- Eu. destruct (Later u Iu) as [Q|]; auto. exfalso. apply IF. rewrite Q. apply QF. apply in_removelast; auto.
        - intros t [<-|[<-|I]]; [cbn; eauto| |apply Path; rewrite Eq; simpl; auto]. unfold s'. cbn. destruct (Path s) as (r & ->); [rewrite Eq; simpl; auto|]. simpl. eauto. }
      exists queue2, s2, rest2, contours2. rewrite <- app_assoc in K2. split; auto. rewrite <- E2, <- Es. reflexivity.
  - (* a vertex visited once *)
    unfold rep in R. cbn [snd] in R. apply Nat.leb_gt in R.
    assert (Nw : ~ In x w /\ ~ In x post).
    { rewrite El3, !occ_app in R. assert (occ [x] x = 1) by (simpl; destruct (pt_eq_dec x x); congruence). split; intro I; apply occ_in in I; lia. }
    destruct Nw as [Nw Np].
    destruct (push_common w F x post contours) as (C1 & C2 & C3 & C4 & C5 & C6); auto.
    destruct (IH (w ++ [x]) queue s rest contours) as (queue2 & s2 & rest2 & contours2 & E2 & K2).
    { constructor; rewrite <- ?Es; try rewrite Fs; auto.
      - intros y Iy Ny. rewrite in_app_iff in Iy, Ny. destruct Iy as [Iy|[<-|[]]]; [|simpl in Ny; tauto]. destruct (Gone y Iy) as (P & NP & Sp); [tauto|]. exists P. split; auto. apply sub_r; auto.
      - intros y Iy Ip. rewrite in_app_iff in Iy. destruct Iy as [Iy|[<-|[]]]; [|tauto]. apply Node; simpl; auto.
      - intros t I. destruct (Later t I) as [Q|]; auto. exfalso. apply Nw. rewrite Q. eapply sub_in; eauto. apply QF. apply in_removelast; auto. }
    exists queue2, s2, rest2, contours2. rewrite <- app_assoc in K2. split; auto. rewrite <- E2, <- Es. reflexivity.
Qed.
End Loop.

(** ** The whole function *)
Lemma enumf_app n a b : enumf n (a ++ b) = enumf n a ++ enumf (n + length a) b.
Proof.
  unfold enumf. revert n. induction a as [|x a IH]; intro n; simpl; [rewrite Nat.add_0_r; auto|]. f_equal. rewrite IH. rewrite <- plus_n_Sm. auto.
Qed.
Lemma first_rep l (f : pt -> bool) : Forall (fun x => f x = false) l \/ exists pre x post, l = pre ++ x :: post /\ Forall (fun x => f x = false) pre /\ f x = true.
Proof.
  induction l as [|y l IH]; [left; auto|]. destruct (f y) eqn:E; [right; exists [], y, l; simpl; auto|].
  destruct IH as [F|(pre & x & post & -> & F & H)]; [left; auto|]. right. exists (y :: pre), x, post. auto.
Qed.
Lemma filter_rep_none l n k : Forall (fun x => (2 <=? occ l x) = false) k -> filter (rep l) (enumf n k) = [].
Proof.
  intro F. revert n. induction F as [|x k E F IH]; intro n; auto. unfold enumf. cbn [length seq combine filter]. unfold rep at 1. cbn [snd]. rewrite E. apply IH.
Qed.
Lemma occ_nodup l : (forall x, In x l -> occ l x <= 1) -> NoDup l.
Proof. intro H. apply (NoDup_count_occ pt_eq_dec). intro x. destruct (in_dec pt_eq_dec x l) as [I|I]; auto. apply (count_occ_not_In pt_eq_dec) in I. lia. Qed.
Lemma edges_rotate a b : Permutation (edges (a ++ b)) (edges (b ++ a)).
Proof.
  revert b. induction a as [|x a IH]; intro b; [rewrite app_nil_r; auto|]. simpl app.
  destruct (a ++ b) as [|y t] eqn:E; [apply app_eq_nil in E as [-> ->]; auto|]. rewrite <- E.
  rewrite <- (edges_rot x (a ++ b)) by (rewrite E; discriminate). rewrite <- app_assoc. rewrite IH. rewrite <- app_assoc. auto.
Qed.

(** [x] is the first vertex, in path order, that is visited again *)
Definition first_repeated (l : list pt) (x : pt) : Prop :=
  exists pre post, l = pre ++ x :: post /\ 2 <= occ l x /\ forall y, In y pre -> occ l y = 1.
Lemma decompose_spec l : 3 <= length l -> noncrossing l ->
  (forall p, 2 <= occ l p -> exists q, In q l /\ pt_lt p q) ->
  (forall x, 3 <= occ l x -> first_repeated l x) ->
  match decompose_contours l with
  | None => False
  | Some None => NoDup l
  | Some (Some cs) => Permutation (edges l) (concat (map edges cs)) /\ Forall (@NoDup pt) cs /\ ~ NoDup l
  end.
Proof.
  intros Len Nc Mx Two. unfold decompose_contours. destruct (Nat.ltb_spec (length l) 3) as [|_]; [lia|].
  rewrite (anchors_rep l Mx). change (enum l) with (enumf 0 l).
  destruct (first_rep l (fun x => 2 <=? occ l x)) as [F|(pre & x & post & El & F & R)].
  - rewrite filter_rep_none by auto. apply occ_nodup. intros x I. rewrite Forall_forall in F. apply F in I. apply Nat.leb_gt in I. lia.
  - apply Nat.leb_le in R. assert (Pre : forall y, In y pre -> occ l y = 1).
    { intros y I. rewrite Forall_forall in F. assert (O := F y I). apply Nat.leb_gt in O. assert (1 <= occ l y) by (apply occ_in; rewrite El, in_app_iff; auto). lia. }
    assert (Two' : forall y, y <> x -> occ l y <= 2).
    { intros y N. destruct (le_lt_dec (occ l y) 2) as [|L]; auto. exfalso. destruct (Two y L) as (pre' & post' & E' & R' & P'). rewrite El in E'.
      apply app_eq_app in E' as (m & [[E1 E2]|[E1 E2]]).
      - destruct m as [|z m]; [simpl in E2; congruence|]. injection E2 as -> _. assert (I : In z pre) by (rewrite E1, in_app_iff; simpl; auto). apply Pre in I. lia.
      - destruct m as [|z m]; [simpl in E2; congruence|]. injection E2 as -> _. assert (I : In z pre') by (rewrite E1, in_app_iff; simpl; auto). apply P' in I. lia. }
    assert (Ea : filter (rep l) (enumf 0 l) = (length pre, x) :: filter (rep l) (enumf (S (length pre)) post)).
    { rewrite El at 2. rewrite enumf_app, filter_app, filter_rep_none by auto. simpl app. unfold enumf. cbn [length seq combine filter]. unfold rep at 1. cbn [snd].
      replace (2 <=? occ l x) with true by (symmetry; apply Nat.leb_le; auto). auto. }
    rewrite Ea. cbn [divide_loop].
    assert (K : kinv l pre x [x] post [sp_start (length pre, x)] (sp_start (length pre, x)) [] []).
    { assert (Et : flat [sp_start (length pre, x)] ++ tailp l (length (pre ++ [x])) (sp_start (length pre, x)) = [x]).
      { unfold flat, tailp, sp_start. simpl. rewrite app_length. simpl. replace (length pre + 1 - S (length pre)) with 0 by lia. auto. }
      constructor; try rewrite Et; auto.
      - rewrite app_length. simpl. lia.
      - repeat constructor. simpl; tauto.
      - apply sub_refl.
      - intros y I N. tauto.
      - simpl. tauto.
      - intros t [<-|[]]. simpl. eauto. }
    destruct (divide_loop_spec l pre x Nc Two' Pre post _ _ _ _ _ K) as (queue & s & rest & cs & E & K2).
    rewrite app_length in E. simpl length in E. rewrite Nat.add_1_r in E. rewrite E.
    assert (Eq := k_q _ _ _ _ _ _ _ _ _ K2). assert (rest = []).
    { destruct rest as [|t rest]; auto. exfalso. apply (k_later _ _ _ _ _ _ _ _ _ K2 s). rewrite Eq, removelast_cons by discriminate. simpl; auto. }
    subst rest. rewrite Eq. cbn [fst].
    set (w := [x] ++ post) in *. assert (El' : l = pre ++ w) by auto.
    assert (EF : flat queue ++ tailp l (length (pre ++ w)) s = sp_path s ++ skipn (sp_last s) l).
    { rewrite Eq, flat_cons. unfold tailp. rewrite <- El'. rewrite firstn_all2 by (rewrite skipn_length; auto). auto. }
    destruct K2 as [_ _ _ Nd HF _ Lst Pe Su _ _ _ _ Done]. rewrite EF in *. set (G := sp_path s ++ skipn (sp_last s) l) in *.
    assert (E1 : (if sp_last s <? length l then G else sp_path s) = G).
    { destruct (Nat.ltb_spec (sp_last s) (length l)); auto. unfold G. rewrite skipn_all2 by auto. rewrite app_nil_r. auto. }
    assert (E2 : (if 0 <? length pre then G ++ firstn (length pre) l else G) = G ++ pre).
    { rewrite El' at 1. rewrite firstn_app, firstn_all, Nat.sub_diag. simpl firstn. rewrite app_nil_r. destruct pre; simpl; [rewrite app_nil_r|]; auto. }
    cbv zeta. rewrite E1, E2. split; [|split].
    + rewrite El' at 1. rewrite edges_rotate. rewrite map_app, concat_app. change (concat (map edges [G ++ pre])) with (edges (G ++ pre) ++ []). rewrite app_nil_r.
      destruct G as [|y G']; [discriminate|]. injection HF as ->. change (w ++ pre) with (x :: (post ++ pre)). change ((x :: G') ++ pre) with (x :: (G' ++ pre)). rewrite !edges_steps. change w with (x :: post) in *.
      assert (X : forall b, b <> [] -> steps (x :: b) = steps ([x] ++ b)) by auto.
      assert (Sp : forall a c, a <> [] -> steps (a ++ pre ++ [x]) = steps a ++ steps (last a c :: pre ++ [x])).
      { intros a c Na. destruct (exists_last Na) as (a' & z & ->). rewrite last_cons_snoc, <- app_assoc. simpl app. apply steps_app. }
      assert (H1 : steps (x :: (post ++ pre) ++ [x]) = steps (x :: post) ++ steps (last (x :: post) x :: pre ++ [x])) by (rewrite <- app_assoc; apply (Sp (x :: post) x); discriminate).
      assert (H2 : steps (x :: (G' ++ pre) ++ [x]) = steps (x :: G') ++ steps (last (x :: G') x :: pre ++ [x])) by (rewrite <- app_assoc; apply (Sp (x :: G') x); discriminate).
      rewrite H1, H2, Lst, Pe, <- app_assoc. rewrite Permutation_app_comm, <- !app_assoc. apply Permutation_app_head. apply Permutation_app_comm.
    + apply Forall_app. split; auto. constructor; auto. apply occ_nodup. intros y _. rewrite occ_app.
      assert (occ G y <= 1) by (apply (NoDup_count_occ pt_eq_dec); auto). destruct (in_dec pt_eq_dec y pre) as [I|I].
      * apply Pre in I as O. rewrite El', occ_app in O. apply occ_in in I. assert (occ G y = 0); [|lia]. apply count_occ_not_In. intro Q. eapply sub_in in Q; eauto. apply occ_in in Q. lia.
      * apply (count_occ_not_In pt_eq_dec) in I. lia.
    + intro N. apply (proj1 (NoDup_count_occ pt_eq_dec l)) with (x := x) in N. lia.
Qed.
