(** * Hole binding: every hole lands in exactly one shape. *)
From Verif Require Import Base ModelFill FillProofs ModelGraph GraphProofs ModelExtract ModelBind.
Open Scope Z_scope.

(** the holes given to shape [k], in their order *)
Definition given {X} (parents : list nat) (holes : list X) (k : nat) : list X :=
  map snd (filter (fun e => (fst e =? k)%nat) (combine parents holes)).

Lemma push_spec {X} : forall (holes : list X) parents shapes out, push_holes parents holes shapes = Some out ->
  exists par, length par = length holes /\ Forall (fun s => (s < length shapes)%nat) par /\ length out = length shapes /\
    (exists rest, parents = map Some par ++ rest) /\
    forall k s, nth_error shapes k = Some s -> nth_error out k = Some (s ++ given par holes k).
Proof.
  induction holes as [|h hs IH]; intros parents shapes out H.
  - assert (E : out = shapes) by (destruct parents; simpl in H; congruence). subst out. exists []. split; auto. split; auto. split; auto. split; [exists parents; auto|].
    intros k s E. unfold given. simpl. rewrite app_nil_r. auto.
  - destruct parents as [|[s|] ps]; try discriminate. cbn [push_holes] in H. destruct (Nat.ltb_spec s (length shapes)) as [L|L]; [|discriminate].
    destruct (IH _ _ _ H) as (par & Lp & Fp & Lo & (rest & Er) & Sp). rewrite upd_length in Fp, Lo.
    exists (s :: par). split; [simpl; lia|]. split; [constructor; auto|]. split; auto. split.
    + exists rest. rewrite Er. auto.
    + intros k sh E. unfold given. simpl. destruct (Nat.eqb_spec s k) as [->|N].
      * cbn [map snd]. rewrite (Sp k (sh ++ [h])); [rewrite <- app_assoc; auto|]. rewrite upd_nth, Nat.eqb_refl, E. auto.
      * apply Sp. rewrite upd_nth. destruct (Nat.eqb_spec s k); [contradiction|auto].
Qed.

Lemma given_all {X} (holes : list X) k : given (repeat k (length holes)) holes k = holes.
Proof. unfold given. induction holes as [|h r IH]; simpl; auto. rewrite Nat.eqb_refl. simpl. rewrite IH. auto. Qed.

(** the shapes: the outer contours in order, each followed by the holes whose parent it is *)
Definition assembled {X} (outers holes : list X) (par : list nat) (out : list (list X)) : Prop :=
  length par = length holes /\ Forall (fun k => (k < length outers)%nat) par /\ length out = length outers /\
  forall k o, nth_error outers k = Some o -> nth_error out k = Some (o :: given par holes k).

Lemma single_nth {X} (outers : list X) k o : nth_error outers k = Some o -> nth_error (map (fun c => [c]) outers) k = Some [o].
Proof. intro E. rewrite nth_error_map, E. auto. Qed.

Lemma push_assembled {X} parents (holes outers : list X) out : push_holes parents holes (map (fun c => [c]) outers) = Some out ->
  exists par, assembled outers holes par out /\ exists rest, parents = map Some par ++ rest.
Proof.
  intro H. destruct (push_spec _ _ _ _ H) as (par & Lp & Fp & Lo & Er & Sp). rewrite map_length in *.
  exists par. split; auto. repeat split; auto. intros k o E. rewrite (Sp k [o]); auto. apply single_nth; auto.
Qed.

Lemma join_assembled dbg outers holes anchors cw out :
  join_sorted_holes dbg (map (fun c => [c]) outers) holes anchors cw = Some out -> outers <> [] ->
  exists par, assembled outers holes par out.
Proof.
  intros H N. destruct outers as [|o os]; [contradiction|]. cbn [map join_sorted_holes] in H.
  destruct holes as [|h hs].
  { assert (E : out = map (fun c => [c]) (o :: os)) by (destruct os; cbn [map] in *; congruence). subst out. exists [].
    split; auto. split; auto. split; [apply map_length|]. intros k c E. apply single_nth; auto. }
  destruct os as [|o2 os].
  { simpl in H. injection H as <-. exists (repeat O (length (h :: hs))). split; [apply repeat_length|]. split.
    - apply Forall_forall. intros x I. apply repeat_spec in I. subst x. simpl. lia.
    - split; auto. intros k c E. destruct k as [|[|k]]; simpl in E; try discriminate. injection E as <-. rewrite given_all. auto. }
  set (outers := o :: o2 :: os) in *. change ([o] :: map (fun c => [c]) (o2 :: os)) with (map (fun c => [c]) outers) in H.
  assert (H' : (if dbg && negb (is_sorted_a anchors) then None else scan_join dbg (map (fun c => [c]) outers) (h :: hs) (add_sort_by_angle anchors) cw) = Some out) by exact H.
  destruct (dbg && negb (is_sorted_a anchors)); [discriminate|]. unfold scan_join in H'.
  destruct (add_sort_by_angle anchors); [discriminate|]. destruct (all_some _); [|discriminate].
  destruct (id_of_contours false _ _ _ _); [|discriminate]. destruct (id_of_contours true _ _ _ _); [|discriminate].
  destruct (bind _ _ _ _) as [parents|]; [|discriminate]. destruct (push_assembled _ _ _ _ H') as (par & As & _). eauto.
Qed.

Lemma join_unsorted_assembled dbg outers holes cw out :
  join_unsorted_holes dbg (map (fun c => [c]) outers) holes cw = Some out -> outers <> [] ->
  exists par, assembled outers holes par out.
Proof.
  intros H N. destruct outers as [|o os]; [contradiction|]. destruct holes as [|h hs].
  { apply (join_assembled dbg _ _ [] cw out); auto. }
  destruct os as [|o2 os].
  { apply (join_assembled dbg _ _ [] cw out); auto. }
  set (outers := o :: o2 :: os) in *.
  assert (H' : match all_some (map (fun ih => option_map (IdS true (fst ih)) (left_bottom_segment (snd ih))) (enum (h :: hs))) with
      | None => None | Some hs' => scan_join dbg (map (fun c => [c]) outers) (h :: hs) (isort a_angle_leb hs') cw end = Some out) by exact H.
  destruct (all_some (map (fun ih => _) _)) as [l|]; [|discriminate]. unfold scan_join in H'.
  destruct (isort a_angle_leb l); [discriminate|]. destruct (all_some _); [|discriminate].
  destruct (id_of_contours false _ _ _ _); [|discriminate]. destruct (id_of_contours true _ _ _ _); [|discriminate].
  destruct (bind _ _ _ _) as [parents|]; [|discriminate]. destruct (push_assembled _ _ _ _ H') as (par & As & _). eauto.
Qed.

(** each hole once *)
Lemma upd_concat {A} (x : A) : forall (L : list (list A)) k, (k < length L)%nat -> Permutation (concat (upd k (fun s => s ++ [x]) L)) (x :: concat L).
Proof.
  induction L as [|s L IH]; intros [|k] Lk; simpl in *; try lia.
  - rewrite <- app_assoc. symmetry. apply Permutation_middle.
  - rewrite (IH k) by lia. symmetry. apply Permutation_middle.
Qed.
Lemma given_perm {X} (holes : list X) : forall par n, length par = length holes -> Forall (fun k => (k < n)%nat) par ->
  Permutation (concat (map (given par holes) (seq 0 n))) holes.
Proof.
  induction holes as [|h hs IH]; intros [|s par] n Lp Fp; simpl in Lp; try lia.
  - unfold given. simpl. induction (seq 0 n); simpl; auto.
  - inversion Fp as [|? ? Fs Fp']; subst. specialize (IH par n ltac:(lia) Fp').
    assert (E : Permutation (concat (map (given (s :: par) (h :: hs)) (seq 0 n))) (h :: concat (map (given par hs) (seq 0 n)))).
    { clear - Fs. assert (G : forall m b, (b <= s < b + m)%nat \/ (s < b)%nat -> Permutation (concat (map (given (s :: par) (h :: hs)) (seq b m)))
         (if (b <=? s)%nat then h :: concat (map (given par hs) (seq b m)) else concat (map (given par hs) (seq b m)))).
      { induction m as [|m IHm]; intros b D; simpl.
        - destruct (Nat.leb_spec b s); [lia|auto].
        - assert (G0 : given (s :: par) (h :: hs) b = if (s =? b)%nat then h :: given par hs b else given par hs b).
          { unfold given. simpl. destruct (s =? b)%nat; auto. }
          rewrite G0. rewrite (IHm (Datatypes.S b)) by lia.
          destruct (Nat.eqb_spec s b), (Nat.leb_spec b s), (Nat.leb_spec (Datatypes.S b) s); try lia; simpl; auto.
          symmetry. apply Permutation_middle. }
      apply (G n 0%nat). lia. }
    rewrite E, IH. auto.
Qed.
Lemma assembled_concat {X} (outers holes : list X) par out : assembled outers holes par out -> Permutation (concat (map (@tl X) out)) holes.
Proof.
  intros (Lp & Fp & Lo & Sp). rewrite <- (given_perm holes par (length outers) Lp Fp).
  assert (E : map (@tl X) out = map (given par holes) (seq 0 (length outers))).
  { apply nth_ext with (d := []) (d' := []); [rewrite !map_length, seq_length; auto|]. intros k Lk. rewrite map_length, Lo in Lk.
    destruct (nth_error outers k) as [o|] eqn:Eo; [|apply nth_error_None in Eo; lia]. specialize (Sp k o Eo).
    apply nth_error_nth. rewrite nth_error_map, Sp. simpl. f_equal. symmetry. apply nth_error_nth. rewrite nth_error_map.
    rewrite nth_error_nth' with (d := O) by (rewrite seq_length; lia). rewrite seq_nth by lia. auto. }
  rewrite E. auto.
Qed.

(** all contours of the shapes: the outer contours and the holes *)
Lemma assembled_all {X} (outers holes : list X) par out : assembled outers holes par out -> Permutation (concat out) (outers ++ holes).
Proof.
  intro As. rewrite <- (assembled_concat _ _ _ _ As). destruct As as (Lp & Fp & Lo & Sp). clear Lp Fp. revert out Lo Sp. induction outers as [|o os IH]; intros out Lo Sp.
  - destruct out; [auto|discriminate].
  - destruct out as [|s out]; [discriminate|]. pose proof (Sp 0%nat o eq_refl) as E. cbn [nth_error] in E. injection E as ->. cbn [concat map tl app]. constructor.
    assert (G : forall n out, length out = length os -> (forall k o', nth_error os k = Some o' -> nth_error out k = Some (o' :: given par holes (n + k)%nat)) -> Permutation (concat out) (os ++ concat (map (@tl X) out))).
    { clear. induction os as [|o os IH]; intros n out Lo Sp; [destruct out; [auto|discriminate]|]. destruct out as [|s out]; [discriminate|].
      pose proof (Sp 0%nat o eq_refl) as E. cbn [nth_error] in E. injection E as ->. cbn [concat map tl app]. constructor.
      rewrite (IH (S n) out); [|simpl in Lo; lia|intros k o' Hk; specialize (Sp (S k) o' Hk); cbn [nth_error] in Sp; rewrite Sp; f_equal; f_equal; f_equal; lia].
      rewrite !app_assoc. apply Permutation_app_tail. apply Permutation_app_comm. }
    rewrite (G 1%nat out); [|simpl in Lo; lia|intros k o' Hk; apply (Sp (S k) o' Hk)]. rewrite !app_assoc. apply Permutation_app_tail. apply Permutation_app_comm.
Qed.
