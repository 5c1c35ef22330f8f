(** * Splitting a path into loops: proofs about [split_loops]. *)
From Verif Require Import Base Spec ModelLoops.
Open Scope Z_scope.

(** subsequence *)
Inductive sub {A} : list A -> list A -> Prop :=
| sub_nil l : sub [] l
| sub_keep x s l : sub s l -> sub (x :: s) (x :: l)
| sub_skip x s l : sub s l -> sub s (x :: l).
(** no two vertices are visited alternately: [.. P .. Q .. P .. Q ..] *)
Definition noncrossing (l : list pt) : Prop := forall P Q, P <> Q -> ~ sub [P; Q; P; Q] l.

Lemma sub_refl {A} (l : list A) : sub l l.
Proof. induction l; constructor; auto. Qed.
Lemma sub_trans {A} (a b c : list A) : sub a b -> sub b c -> sub a c.
Proof.
  intros H1 H2. revert a H1. induction H2 as [l|x s l H IH|x s l H IH]; intros a H1.
  - inversion H1; subst. constructor.
  - inversion H1; subst; [constructor|constructor; auto|constructor 3; auto].
  - constructor 3; auto.
Qed.
Lemma sub_app {A} (a b c d : list A) : sub a b -> sub c d -> sub (a ++ c) (b ++ d).
Proof.
  intros H1 H2. induction H1; simpl; try (constructor; auto; fail). induction l; simpl; auto. constructor 3; auto.
Qed.
Lemma sub_in {A} (a b : list A) x : sub a b -> In x a -> In x b.
Proof. intros H I. induction H; simpl in *; [destruct I| |]; intuition. Qed.
Lemma in_sub {A} (x : A) l : In x l -> sub [x] l.
Proof. induction l as [|y l IH]; simpl; [tauto|]. intros [->|I]; [constructor; constructor|constructor 3; auto]. Qed.
Lemma sub_r {A} (a b c : list A) : sub a b -> sub a (b ++ c).
Proof. intro H. rewrite <- (app_nil_r a). apply sub_app; auto. constructor. Qed.

(** steps of an open path *)
Fixpoint steps (l : list pt) : list (pt * pt) :=
  match l with
  | a :: ((b :: _) as r) => (a, b) :: steps r
  | _ => []
  end.
Lemma steps_app a x b : steps (a ++ x :: b) = steps (a ++ [x]) ++ steps (x :: b).
Proof. induction a as [|y a IH]; auto. destruct a as [|z a]; [reflexivity|]. change (steps ((y :: z :: a) ++ x :: b)) with ((y, z) :: steps ((z :: a) ++ x :: b)). rewrite IH. reflexivity. Qed.
Lemma combine_tl {A} (a : A) l : combine (a :: l) l = combine (a :: l) (l ++ []).
Proof. rewrite app_nil_r. auto. Qed.
Lemma edges_steps p r : edges (p :: r) = steps (p :: r ++ [p]).
Proof.
  unfold edges. generalize p at 2 4 as z. revert p. induction r as [|x r IH]; intros p z; auto.
  change (combine (p :: x :: r) ((x :: r) ++ [z])) with ((p, x) :: combine (x :: r) (r ++ [z])). rewrite IH. reflexivity.
Qed.
(** a loop may be read from any of its vertices *)
Lemma edges_rot p t : t <> [] -> Permutation (edges (t ++ [p])) (edges (p :: t)).
Proof.
  destruct t as [|x t]; [congruence|]. intros _. simpl app. rewrite !edges_steps. rewrite <- app_assoc. simpl app.
  change (x :: t ++ [p; x]) with ((x :: t) ++ p :: [x]). rewrite steps_app. change (p :: x :: t ++ [p]) with ([p] ++ x :: (t ++ [p])). rewrite (steps_app [p] x).
  change (steps [p; x]) with [(p, x)]. change (steps ([p] ++ [x])) with [(p, x)]. rewrite Permutation_app_comm. reflexivity.
Qed.

Record linv (w path : list pt) (m : list (pt * nat)) (res tiny : list (list pt)) : Prop := {
  li_nodup : NoDup path;
  li_hd : hd_error path = hd_error w;
  li_last : forall d, last path d = last w d;
  li_edges : Permutation (steps w) (steps path ++ concat (map edges (res ++ tiny)));
  li_map : forall i x, nth_error path i = Some x -> hm_get x m = Some (S i);
  li_seen : forall x, hm_get x m <> None -> In x w;
  li_sub : sub path w;
  li_gone : forall x, hm_get x m <> None -> ~ In x path -> exists P, P <> x /\ sub [P; x; P] w;
  li_res : Forall (fun c => NoDup c /\ (3 <= length c)%nat) res;
  li_tiny : Forall (fun c : list pt => (length c <= 2)%nat) tiny;
  li_in : forall c x, In c res -> In x c -> In x w }.

Lemma hm_get_cons p q i m : hm_get p ((q, i) :: m) = if pt_eqb q p then Some i else hm_get p m.
Proof. reflexivity. Qed.
Lemma last_cons_snoc {A} (l : list A) x d : last (l ++ [x]) d = x.
Proof. induction l as [|y l IH]; auto. simpl. destruct (l ++ [x]) eqn:E; [destruct l; discriminate|auto]. Qed.
Lemma last_skip {A} (a : list A) x t d : last (a ++ x :: t) d = last (x :: t) d.
Proof. induction a as [|y a IH]; auto. simpl app. rewrite <- IH. simpl. destruct (a ++ x :: t) eqn:E; auto. destruct a; discriminate. Qed.
Lemma steps_snoc l d p : l <> [] -> steps (l ++ [p]) = steps l ++ [(last l d, p)].
Proof.
  intro N. induction l as [|x l IH]; [congruence|]. destruct l as [|y l]; auto. change (steps ((x :: y :: l) ++ [p])) with ((x, y) :: steps ((y :: l) ++ [p])).
  rewrite IH by discriminate. reflexivity.
Qed.
Lemma hd_error_app {A} (l r : list A) : l <> [] -> hd_error (l ++ r) = hd_error l.
Proof. destruct l; auto. congruence. Qed.

Lemma linv_nil : linv [] [] [] [] [].
Proof. constructor; auto; try constructor; simpl; try congruence; try tauto. intros i x H. destruct i; discriminate. Qed.

Lemma linv_push w path m res tiny p : linv w path m res tiny -> hm_get p m = None ->
  linv (w ++ [p]) (path ++ [p]) ((p, S (length path)) :: m) res tiny.
Proof.
  intros I Hp. assert (Np : ~ In p path).
  { intro X. apply In_nth_error in X as (i & E). apply (li_map _ _ _ _ _ I) in E. congruence. }
  assert (Em : path = [] <-> w = []).
  { pose proof (li_hd _ _ _ _ _ I) as H. destruct path, w; simpl in H; split; congruence. }
  constructor.
  - apply (Permutation_NoDup (Permutation_cons_append path p)). constructor; [auto|apply (li_nodup _ _ _ _ _ I)].
  - pose proof (li_hd _ _ _ _ _ I) as H. destruct path, w; simpl in *; congruence.
  - intro d. rewrite !last_cons_snoc. auto.
  - destruct (list_eq_dec pt_eq_dec w []) as [E|N].
    + pose proof (proj2 Em E) as E'. pose proof (li_edges _ _ _ _ _ I) as P. rewrite E, E' in *. simpl in *. exact P.
    + assert (N' : path <> []) by tauto. rewrite (steps_snoc w p p N), (steps_snoc path p p N'), (li_last _ _ _ _ _ I), (li_edges _ _ _ _ _ I).
      rewrite <- !app_assoc. apply Permutation_app_head. rewrite Permutation_app_comm. auto.
  - intros i x H. rewrite hm_get_cons. destruct (pt_eqb p x) eqn:E.
    + apply pt_eqb_eq in E. subst x. f_equal. f_equal. destruct (lt_dec i (length path)) as [L|L].
      * rewrite nth_error_app1 in H by auto. apply nth_error_In in H. tauto.
      * assert (i < length (path ++ [p]))%nat by (apply nth_error_Some; congruence). rewrite app_length in *. simpl in *. lia.
    + destruct (lt_dec i (length path)) as [L|L].
      * rewrite nth_error_app1 in H by auto. apply (li_map _ _ _ _ _ I); auto.
      * rewrite nth_error_app2 in H by lia. destruct (i - length path)%nat as [|k]; simpl in H; [|destruct k; discriminate]. injection H as <-. rewrite pt_eqb_refl in E. discriminate.
  - intros x H. rewrite hm_get_cons in H. apply in_app_iff. destruct (pt_eqb p x) eqn:E; [apply pt_eqb_eq in E; subst; right; simpl; auto|left; apply (li_seen _ _ _ _ _ I); auto].
  - apply sub_app; [apply (li_sub _ _ _ _ _ I)|apply sub_refl].
  - intros x H N. rewrite hm_get_cons in H. destruct (pt_eqb p x) eqn:E.
    + apply pt_eqb_eq in E. subst x. exfalso. apply N. apply in_app_iff. simpl. auto.
    + destruct (li_gone _ _ _ _ _ I x H) as (P & NP & S); [intro; apply N; apply in_app_iff; auto|]. exists P. split; auto. apply sub_r; auto.
  - apply (li_res _ _ _ _ _ I).
  - apply (li_tiny _ _ _ _ _ I).
  - intros c x Ic Ix. apply in_app_iff. left. eapply (li_in _ _ _ _ _ I); eauto.
Qed.

Lemma pop_edges w a t res tiny p : (forall d, last (a ++ p :: t) d = last w d) -> w <> [] ->
  Permutation (steps w) (steps (a ++ p :: t) ++ concat (map edges (res ++ tiny))) ->
  Permutation (steps (w ++ [p])) (steps (a ++ [p]) ++ edges (p :: t) ++ concat (map edges (res ++ tiny))).
Proof.
  intros L N P. rewrite (steps_snoc w p p N), P, <- L. rewrite (steps_app a p t), last_skip. rewrite edges_steps.
  assert (E : steps (p :: t ++ [p]) = steps (p :: t) ++ [(last (p :: t) p, p)]) by (rewrite <- (steps_snoc (p :: t) p p) by discriminate; reflexivity).
  rewrite E. rewrite <- !app_assoc. apply Permutation_app_head. apply Permutation_app_head. apply Permutation_app_comm.
Qed.
Lemma linv_pop_gen w a t m res tiny res' tiny' p : linv w (a ++ p :: t) m res tiny ->
  Permutation (concat (map edges (res' ++ tiny'))) (edges (p :: t) ++ concat (map edges (res ++ tiny))) ->
  Forall (fun c => NoDup c /\ (3 <= length c)%nat) res' -> Forall (fun c : list pt => (length c <= 2)%nat) tiny' ->
  (forall c x, In c res' -> In x c -> In x w) ->
  linv (w ++ [p]) (a ++ [p]) m res' tiny'.
Proof.
  intros I Pe R T Hin. assert (Nw : w <> []) by (pose proof (li_hd _ _ _ _ _ I) as H; destruct w; [destruct a; discriminate|discriminate]).
  pose proof (li_nodup _ _ _ _ _ I) as Nd.
  assert (Na : ~ In p a /\ ~ In p t /\ NoDup (a ++ [p])).
  { apply NoDup_remove in Nd as Nd'. destruct Nd' as [N1 N2]. rewrite in_app_iff in N2. repeat split; try tauto.
    apply (Permutation_NoDup (Permutation_cons_append a p)). constructor; [tauto|]. clear - N1. induction a as [|x a IH]; [constructor|]. inversion N1; subst. constructor; [rewrite in_app_iff in *; tauto|auto]. }
  destruct Na as (Na & Nt & Nd2).
  constructor; auto.
  - rewrite (hd_error_app w) by auto. rewrite <- (li_hd _ _ _ _ _ I). destruct a; auto.
  - intro d. rewrite !last_cons_snoc. auto.
  - rewrite (pop_edges w a t res tiny p); auto.
    + apply Permutation_app_head. symmetry. exact Pe.
    + apply (li_last _ _ _ _ _ I).
    + apply (li_edges _ _ _ _ _ I).
  - intros i x H. apply (li_map _ _ _ _ _ I). destruct (lt_dec i (length (a ++ [p]))) as [L|L].
    + change (a ++ p :: t) with (a ++ [p] ++ t). rewrite app_assoc. rewrite nth_error_app1; auto.
    + assert (i < length (a ++ [p]))%nat by (apply nth_error_Some; congruence). lia.
  - intros x H. apply in_app_iff. left. apply (li_seen _ _ _ _ _ I); auto.
  - apply sub_app; [|apply sub_refl]. eapply sub_trans; [|apply (li_sub _ _ _ _ _ I)]. rewrite <- (app_nil_r a) at 1. apply sub_app; [apply sub_refl|constructor].
  - intros x H N. destruct (in_dec pt_eq_dec x t) as [It|It].
    + exists p. split; [intro; subst; tauto|]. change [p; x; p] with ([p; x] ++ [p]). apply sub_app; [|apply sub_refl].
      eapply sub_trans; [|apply (li_sub _ _ _ _ _ I)]. change [p; x] with ([] ++ [p; x]). apply sub_app; [constructor|]. constructor. apply in_sub; auto.
    + destruct (li_gone _ _ _ _ _ I x H) as (P & NP & S).
      { rewrite in_app_iff in *. simpl in *. tauto. }
      exists P. split; auto. apply sub_r; auto.
  - intros c x Ic Ix. apply in_app_iff. left. eauto.
Qed.

Lemma split_go_spec l : forall w path m res tiny, linv w path m res tiny -> noncrossing (w ++ l) ->
  exists path' m' res' tiny', split_go 0 l path m res = Some (path', res') /\ linv (w ++ l) path' m' res' tiny'.
Proof.
  induction l as [|p l IH]; intros w path m res tiny I Nc.
  - exists path, m, res, tiny. rewrite app_nil_r. auto.
  - cbn [split_go]. destruct (hm_get p m) as [pos|] eqn:Hp.
    + destruct (in_dec pt_eq_dec p path) as [Ip|Ip].
      2: { exfalso. destruct (li_gone _ _ _ _ _ I p) as (P & NP & S); [congruence|auto|]. apply (Nc P p NP).
           change [P; p; P; p] with ([P; p; P] ++ [p]). apply sub_app; auto. constructor. constructor. }
      apply in_split in Ip as (a & t & E).
      assert (Ep : pos = S (length a)).
      { assert (X : hm_get p m = Some (S (length a))) by (apply (li_map _ _ _ _ _ I); rewrite E, nth_error_app2, Nat.sub_diag by lia; auto). congruence. }
      assert (Ef : firstn pos path = a ++ [p]).
      { rewrite E, Ep. change (a ++ p :: t) with (a ++ [p] ++ t). rewrite app_assoc. replace (S (length a)) with (length (a ++ [p])) by (rewrite app_length; simpl; lia).
        rewrite firstn_app, Nat.sub_diag, firstn_all. simpl. apply app_nil_r. }
      assert (Es : skipn pos path = t).
      { rewrite E, Ep. change (a ++ p :: t) with (a ++ [p] ++ t). rewrite app_assoc. replace (S (length a)) with (length (a ++ [p])) by (rewrite app_length; simpl; lia).
        rewrite skipn_app, Nat.sub_diag, skipn_all. auto. }
      rewrite Ef, Es. assert (Len : (length path = pos + length t)%nat) by (rewrite E, app_length; simpl; lia).
      destruct (Nat.ltb_spec (length path) pos) as [L|_]; [lia|].
      rewrite E in I. clear E.
      assert (Nc' : noncrossing ((w ++ [p]) ++ l)) by (rewrite <- app_assoc; auto).
      replace (w ++ p :: l) with ((w ++ [p]) ++ l) by (rewrite <- app_assoc; auto).
      destruct (Nat.ltb_spec (length path - pos) 2) as [L|L].
      * apply (IH (w ++ [p]) (a ++ [p]) m res ((p :: t) :: tiny)); auto. apply (linv_pop_gen w a t m res tiny); auto.
        -- rewrite !map_app, !concat_app. simpl map. simpl concat. rewrite Permutation_app_comm, <- !app_assoc. apply Permutation_app_head. apply Permutation_app_comm.
        -- apply (li_res _ _ _ _ _ I).
        -- constructor; [simpl; lia|apply (li_tiny _ _ _ _ _ I)].
        -- apply (li_in _ _ _ _ _ I).
      * change (validate_area 0 (t ++ [p])) with true. cbv iota.
        apply (IH (w ++ [p]) (a ++ [p]) m (res ++ [t ++ [p]]) tiny); auto. apply (linv_pop_gen w a t m res tiny); auto.
        -- rewrite !map_app, !concat_app. simpl map. simpl concat. rewrite app_nil_r, (edges_rot p t) by (destruct t; [simpl in *; lia|discriminate]).
           rewrite <- !app_assoc. rewrite !app_assoc. apply Permutation_app_tail. apply Permutation_app_comm.
        -- apply Forall_app. split; [apply (li_res _ _ _ _ _ I)|]. constructor; auto. split.
           ++ apply (Permutation_NoDup (Permutation_cons_append t p)). pose proof (li_nodup _ _ _ _ _ I) as Nd. clear - Nd. induction a; auto. inversion Nd; auto.
           ++ rewrite app_length. simpl. lia.
        -- apply (li_tiny _ _ _ _ _ I).
        -- intros c x Ic Ix. apply in_app_iff in Ic as [Ic|[<-|[]]]; [apply (li_in _ _ _ _ _ I c); auto|]. apply (sub_in (a ++ p :: t)); [apply (li_sub _ _ _ _ _ I)|].
           rewrite in_app_iff in *. simpl in *. tauto.
    + replace (w ++ p :: l) with ((w ++ [p]) ++ l) by (rewrite <- app_assoc; auto). apply (IH (w ++ [p]) _ _ res tiny).
      * apply linv_push; auto.
      * rewrite <- app_assoc. auto.
Qed.

Lemma split_loops_spec l : noncrossing l -> exists loops tiny, split_loops 0 l = Some loops /\
  Permutation (edges l) (concat (map edges (loops ++ tiny))) /\
  Forall (fun c => NoDup c /\ (3 <= length c)%nat) loops /\ Forall (fun c : list pt => (length c <= 2)%nat) tiny /\
  forall c x, In c loops -> In x c -> In x l.
Proof.
  intro Nc. destruct (split_go_spec l [] [] [] [] [] linv_nil Nc) as (path & m & res & tiny & E & I). simpl app in I.
  unfold split_loops. rewrite E.
  assert (P : Permutation (edges l) (edges path ++ concat (map edges (res ++ tiny)))).
  { pose proof (li_hd _ _ _ _ _ I) as H. pose proof (li_last _ _ _ _ _ I) as L. pose proof (li_edges _ _ _ _ _ I) as Pe.
    destruct l as [|x l'], path as [|y path']; simpl in H; try discriminate; auto. injection H as ->. rewrite !edges_steps.
    rewrite !app_comm_cons. rewrite (steps_snoc (x :: l') x) by discriminate. rewrite (steps_snoc (x :: path') x) by discriminate. rewrite Pe, L.
    rewrite <- !app_assoc. apply Permutation_app_head. apply Permutation_app_comm. }
  destruct (Nat.ltb_spec 2 (length path)) as [L|L].
  - exists (res ++ [path]), tiny. split; auto. split; [|split; [|split]].
    + rewrite P, !map_app, !concat_app. simpl. rewrite app_nil_r, <- !app_assoc. rewrite Permutation_app_comm, <- !app_assoc. apply Permutation_app_head. apply Permutation_app_comm.
    + apply Forall_app. split; [apply (li_res _ _ _ _ _ I)|]. constructor; auto. split; [apply (li_nodup _ _ _ _ _ I)|lia].
    + apply (li_tiny _ _ _ _ _ I).
    + intros c x Ic Ix. apply in_app_iff in Ic as [Ic|[<-|[]]]; [eapply (li_in _ _ _ _ _ I); eauto|]. eapply sub_in; [apply (li_sub _ _ _ _ _ I)|auto].
  - exists res, (path :: tiny). split; auto. split; [|split; [|split]].
    + rewrite P, !map_app, !concat_app. simpl. rewrite Permutation_app_comm, <- !app_assoc. apply Permutation_app_head. apply Permutation_app_comm.
    + apply (li_res _ _ _ _ _ I).
    + constructor; [lia|apply (li_tiny _ _ _ _ _ I)].
    + apply (li_in _ _ _ _ _ I).
Qed.
