(** * The contours of a slice: nesting visits, winding numbers of the loops. *)
From Verif Require Import Base Spec QLib SegmProofs PlanarGeo PlanarSum FillProofs FillCorrect ModelGraph GraphProofs ModelExtract ExtractProofs Rotation NextLink MoveLemma SectorLemma Sides WalkSides Orient AreaWind ModelSlice SliceNext SliceWalk.
From Verif Require LoopProofs.
Open Scope Z_scope.

Definition edge_dec (d e : pt * pt) : {d = e} + {d <> e}.
Proof. decide equality; apply pt_eq_dec. Defined.
Definition is_edge (d e : pt * pt) : Z := if edge_dec d e then 1 else 0.
(** how often the polygon [c] has the directed edge [e] *)
Definition cnt (c : list pt) (e : pt * pt) : Z := zsum (fun d => is_edge d e) (edges c).
Definition flip (e : pt * pt) : pt * pt := (snd e, fst e).
(** the polygon as a chain over the segments *)
Definition ke (c : list pt) (e : xseg) : Z := cnt c (sa e, sb e) - cnt c (sb e, sa e).

Lemma zsum_swap {A B} (f : A -> B -> Z) l m : zsum (fun x => zsum (fun y => f x y) m) l = zsum (fun y => zsum (fun x => f x y) l) m.
Proof.
  induction l as [|x l IH].
  - rewrite zsum_nil. symmetry. apply zsum_zero. intros. apply zsum_nil.
  - rewrite zsum_cons, IH, <- zsum_plus. apply zsum_ext. intros y _. rewrite zsum_cons. auto.
Qed.
Lemma is_edge_eq d e : is_edge d e = 1 <-> d = e.
Proof. unfold is_edge. destruct (edge_dec d e); split; intros; auto; congruence. Qed.
Lemma cnt_nonneg c e : 0 <= cnt c e.
Proof. unfold cnt. induction (edges c) as [|d l IH]; [rewrite zsum_nil; lia|]. rewrite zsum_cons. unfold is_edge at 1. destruct (edge_dec d e); lia. Qed.
Lemma cnt_in c e : 0 < cnt c e <-> In e (edges c).
Proof.
  unfold cnt. induction (edges c) as [|d l IH]; [rewrite zsum_nil; simpl; split; [lia|tauto]|]. rewrite zsum_cons. simpl.
  assert (N : 0 <= zsum (fun d0 => is_edge d0 e) l).
  { clear. induction l as [|d l IH]; [rewrite zsum_nil; lia|]. rewrite zsum_cons. unfold is_edge at 1. destruct (edge_dec d e); lia. }
  unfold is_edge at 1. destruct (edge_dec d e) as [->|X]; split; auto; intros; try lia.
  - right. apply IH. lia.
  - destruct H; [congruence|]. apply IH in H. lia.
Qed.
Lemma cnt_nodup c e : NoDup (edges c) -> cnt c e <= 1.
Proof.
  unfold cnt. induction (edges c) as [|d l IH]; intro H; [rewrite zsum_nil; lia|]. inversion H; subst. rewrite zsum_cons. unfold is_edge at 1. destruct (edge_dec d e) as [->|X].
  - rewrite zsum_zero; [lia|]. intros d I. unfold is_edge. destruct (edge_dec d e); congruence.
  - specialize (IH H3). lia.
Qed.

Lemma last_d {X} : forall (T : list X) x s, last (x :: T) s = last T x.
Proof.
  induction T as [|y T IH]; intros x s; auto. change (last (x :: y :: T) s) with (last (y :: T) s). rewrite !IH. reflexivity.
Qed.

(** induction along a strict order on finitely many elements *)
Lemma fin_ind {X} (R : X -> X -> Prop) (D Q : X -> Prop) (l : list X) : (forall x y : X, {x = y} + {x <> y}) -> (forall x, ~ R x x) ->
  (forall x y z, D x -> D y -> D z -> R x y -> R y z -> R x z) -> (forall x, D x -> In x l) ->
  (forall u, D u -> (forall p, D p -> R p u -> Q p) -> Q u) -> forall u, D u -> Q u.
Proof.
  intros dec Ir Tr Dl St. assert (K : forall n l', (length l' <= n)%nat -> forall u, D u -> (forall p, D p -> R p u -> In p l') -> Q u).
  { induction n as [|n IH]; intros l' Ln u Du H; apply St; auto; intros p Dp Rp; pose proof (H p Dp Rp) as I.
    - destruct l'; [destruct I|simpl in Ln; lia].
    - apply (IH (remove dec p l')); auto.
      + pose proof (remove_length_lt dec l' p I). lia.
      + intros x Dx Rx. apply in_in_remove; [intros ->; exact (Ir _ Rx)|]. apply H; auto. apply (Tr x p u); auto. }
  intros u Du. apply (K (length l) l); auto.
Qed.

Section Loops.
  Variable g : graph.
  Variable pts : list pt.
  Hypothesis G : graph_wf g pts.
  Hypothesis P : links_planar (g_links g).
  Hypothesis NDp : NoDup pts.
  Variable F0 : list fill_t.
  Hypothesis L0 : length F0 = length (g_links g).
  Notation links := (g_links g).
  Notation valid := (valid g).
  Notation at_node := (at_node g).
  Notation na := (na g).
  Notation nb := (nb g).
  Notation pn := (pn pts).
  Notation nd := (nd g pts).
  Notation seg := (seg g).
  Notation ges := (ges g).
  Notation tn := (tn g).
  Notation hn := (hn g).
  Notation A := (g_ambient g P).
  Notation top k i := (top ges k (seg i)).
  Notation bot k i := (bot ges k (seg i)).
  Notation ch := (ch ges).
  Notation used := (used g F0).
  Notation corner := (corner g pts F0).
  Notation chained := (chained g pts F0).
  Notation dsv := (dsv g).
  Notation side_pt := (side_pt g pts).
  Notation closed_sides := (closed_sides g pts F0).
  Notation good_walk := (good_walk g pts F0).

  (** ** polygons made of links *)
  Definition on_links (c : list pt) : Prop := forall d, In d (edges c) -> exists i, valid i /\ (d = (sa (seg i), sb (seg i)) \/ d = (sb (seg i), sa (seg i))).
  Lemma seg_ne i : valid i -> sa (seg i) <> sb (seg i).
  Proof. intro V. apply pt_lt_neq. exact (am_wf _ A _ (seg_in g i V)). Qed.
  Lemma ke_sum c (f : pt * pt -> Z) : on_links c -> (forall p q, f (p, q) = - f (q, p)) ->
    zsum (fun e => ke c e * f (sa e, sb e)) ges = zsum f (edges c).
  Proof.
    intros O An. unfold ke, cnt.
    rewrite (zsum_ext _ (fun e => zsum (fun d => (is_edge d (sa e, sb e) - is_edge d (sb e, sa e)) * f (sa e, sb e)) (edges c))).
    2:{ intros e _. rewrite <- zsum_minus, Z.mul_comm, <- zsum_mult. apply zsum_ext. intros; lia. }
    rewrite zsum_swap. apply zsum_ext. intros d I. destruct (O d I) as (i & V & E). pose proof (am_nodup _ A) as ND. pose proof (seg_in g i V) as Ii. pose proof (seg_ne i V) as Ne.
    rewrite (zsum_ext _ (fun e => if xseg_eq_dec e (seg i) then f d else 0)); [apply zsum_single; auto|].
    intros e Ie. destruct (xseg_eq_dec e (seg i)) as [->|N].
    - unfold is_edge. destruct E as [-> | ->]; destruct (edge_dec _ _), (edge_dec _ _); try congruence; try lia. rewrite (An (sb (seg i))). lia.
    - assert (W : pt_lt (sa e) (sb e)) by exact (am_wf _ A e Ie). assert (W' : pt_lt (sa (seg i)) (sb (seg i))) by exact (am_wf _ A _ Ii).
      assert (X : forall e', sa e = sa e' -> sb e = sb e' -> e = e') by (destruct e as [? ?], e'; simpl; congruence).
      unfold is_edge. destruct (edge_dec d (sa e, sb e)) as [E1|]; [|destruct (edge_dec d (sb e, sa e)) as [E1|]; [|lia]]; exfalso; rewrite E1 in E; destruct E as [E|E]; injection E as E2 E3.
      + apply N. apply X; auto.
      + rewrite E2, E3 in W. eapply pt_lt_irrefl. eapply pt_lt_trans; eauto.
      + rewrite E2, E3 in W. eapply pt_lt_irrefl. eapply pt_lt_trans; eauto.
      + apply N. apply X; auto.
  Qed.
  Lemma ke_wind c q : on_links c -> wind (ch (ke c)) q = contour_wind c q.
  Proof.
    intro O. unfold contour_wind. rewrite <- (ke_sum c (edge_wind q) O) by (intros; apply edge_wind_anti). unfold wind, SectorLemma.ch. rewrite zsum_map. apply zsum_ext. intros e Ie. cbn [fst snd].
    unfold edge_wind. cbn [fst snd]. assert (W : pt_lt (sa e) (sb e)) by exact (am_wf _ A e Ie). replace (XS (sa e) (sb e)) with e by (destruct e; auto). destruct (under e q); [lia|].
    destruct (under (XS (sb e) (sa e)) q) eqn:U; [|lia]. exfalso. unfold under in U. apply andb_true_iff in U as [U _]. apply spans_iff in U. cbn [sa sb] in U.
    assert (Y : (qx (sb e) < qx (sa e))%Q) by lra. apply (proj1 (qz_lt _ _)) in Y. unfold pt_lt in W. lia.
  Qed.
  Lemma ke_balanced c : on_links c -> balanced (ch (ke c)).
  Proof.
    intros O v. unfold boundary, SectorLemma.ch. rewrite zsum_map. cbn [fst snd].
    pose proof (ke_sum c (fun d => bz (pt_eqb (snd d) v) - bz (pt_eqb (fst d) v)) O) as K. cbn [fst snd] in K. rewrite K by (intros; lia). apply (edges_tele (fun p => bz (pt_eqb p v))).
  Qed.

  (** ** walks as polygons *)
  Definition sg (cw : bool) : Z := if cw then 1 else -1.
  (** the step along a side *)
  Definition ed (cw : bool) (t : nat * bool) : pt * pt := (pn (tn cw t), pn (hn cw t)).
  Lemma ed_seg cw t : valid (fst t) -> ed cw t = if Bool.eqb cw (snd t) then (sa (seg (fst t)), sb (seg (fst t))) else (sb (seg (fst t)), sa (seg (fst t))).
  Proof.
    intro V. unfold ed, SliceNext.hn, SliceNext.tn. pose proof (pn_a g pts G _ V) as Ea. pose proof (pn_b g pts G _ V) as Eb. destruct cw, (snd t); cbn [negb Bool.eqb]; rewrite Ea, Eb; auto.
  Qed.
  Lemma ed_inj cw s t : valid (fst s) -> valid (fst t) -> ed cw s = ed cw t -> s = t.
  Proof.
    intros V V' E. rewrite !ed_seg in E by auto. pose proof (am_wf _ A _ (seg_in g _ V)) as W. pose proof (am_wf _ A _ (seg_in g _ V')) as W'. unfold wf_xseg in W, W'.
    assert (X : forall e e' : xseg, sa e = sa e' -> sb e = sb e' -> e = e') by (intros [? ?] [? ?]; simpl; congruence).
    destruct (Bool.eqb cw (snd s)) eqn:Es, (Bool.eqb cw (snd t)) eqn:Et; pose proof (f_equal fst E) as E1; pose proof (f_equal snd E) as E2; cbn [fst snd] in E1, E2.
    - apply side_eq; [apply (seg_inj g P); auto; apply X; auto|]. apply eqb_prop in Es, Et. congruence.
    - rewrite E1, E2 in W. exfalso. eapply pt_lt_irrefl. eapply pt_lt_trans; eauto.
    - rewrite E1, E2 in W. exfalso. eapply pt_lt_irrefl. eapply pt_lt_trans; eauto.
    - apply side_eq; [apply (seg_inj g P); auto; apply X; auto|]. apply eqb_false_iff in Es, Et. destruct cw, (snd s), (snd t); congruence.
  Qed.
  (** the polygon as a chain, counted positive on the side of the region *)
  Definition kr (cw : bool) (c : list pt) (e : xseg) : Z := sg cw * ke c e.
  Lemma kr_seg cw c i : valid i -> kr cw c (seg i) = cnt c (ed cw (i, true)) - cnt c (ed cw (i, false)).
  Proof. intro V. unfold kr, ke. rewrite !ed_seg by auto. cbn [fst snd]. destruct cw; cbn [Bool.eqb sg]; lia. Qed.
  Lemma kr_balanced cw c : on_links c -> balanced (ch (kr cw c)).
  Proof.
    intros O v. pose proof (ke_balanced c O v) as H. unfold boundary, SectorLemma.ch in *. rewrite zsum_map in *. cbn [fst snd] in *. unfold kr.
    rewrite (zsum_ext _ (fun e => sg cw * (ke c e * (bz (pt_eqb (sb e) v) - bz (pt_eqb (sa e) v))))) by (intros; lia). rewrite zsum_mult, H. lia.
  Qed.
  Lemma kr_wind cw c q : on_links c -> wind (ch (kr cw c)) q = sg cw * contour_wind c q.
  Proof.
    intro O. rewrite <- (ke_wind c q O). unfold wind, SectorLemma.ch. rewrite !zsum_map. cbn [fst snd]. rewrite <- zsum_mult. apply zsum_ext. intros e _. unfold kr. destruct (under e q); lia.
  Qed.
  Lemma dsv_diff k i b : valid i -> dsv k (i, b) - dsv k (i, negb b) = if b then k (seg i) else - k (seg i).
  Proof. intro V. unfold SliceWalk.dsv. cbn [fst snd]. pose proof (top_bot g k i). destruct b; cbn [negb]; lia. Qed.
  Lemma kr_diff cw c i b : valid i -> dsv (kr cw c) (i, b) - dsv (kr cw c) (i, negb b) = cnt c (ed cw (i, b)) - cnt c (ed cw (i, negb b)).
  Proof. intro V. rewrite dsv_diff by auto. rewrite kr_seg by auto. destruct b; cbn [negb]; lia. Qed.

  Lemma chained_used cw : forall T s, chained cw s T -> used (fst s) -> forall t, In t (s :: T) -> used (fst t).
  Proof.
    induction T as [|x T IH]; intros s C U t [<-|I]; auto; [destruct I|]. destruct C as [C C']. apply (IH x C'); auto. destruct C as (_ & Ux & _). exact Ux.
  Qed.
  Lemma dsv_const cw k : balanced (ch k) -> (forall u, valid u -> k (seg u) <> 0 -> used u) -> forall T s, chained cw s T -> forall t, In t T -> dsv k t = dsv k s.
  Proof.
    intros B K. induction T as [|x T IH]; intros s C t I; [destruct I|]. destruct C as [C C']. pose proof (dsv_corner g pts G P NDp F0 L0 cw k s x B K C) as E.
    destruct I as [<-|I]; auto. rewrite (IH x C' t I). auto.
  Qed.
  Lemma chained_edges cw : forall T s z, chained cw s T -> z = pn (hn cw (last T s)) ->
    combine (map (side_pt cw) (s :: T)) (map (side_pt cw) T ++ [z]) = map (ed cw) (s :: T).
  Proof.
    induction T as [|x T IH]; intros s z C Z.
    - simpl in Z. subst z. reflexivity.
    - destruct C as [C C']. change (combine (map (side_pt cw) (s :: x :: T)) (map (side_pt cw) (x :: T) ++ [z])) with ((side_pt cw s, side_pt cw x) :: combine (map (side_pt cw) (x :: T)) (map (side_pt cw) T ++ [z])).
      change (map (ed cw) (s :: x :: T)) with (ed cw s :: map (ed cw) (x :: T)). rewrite (IH x z C').
      + f_equal. unfold ed, SliceWalk.side_pt. f_equal. f_equal. destruct C as (_ & _ & E & _). exact E.
      + rewrite Z, last_d. reflexivity.
  Qed.
  Lemma closed_edges cw s T : chained cw s T -> hn cw (last T s) = tn cw s -> edges (map (side_pt cw) (s :: T)) = map (ed cw) (s :: T).
  Proof. intros C E. cbn [map]. unfold edges. apply (chained_edges cw T s); auto. rewrite E. reflexivity. Qed.
  Lemma walk_on_links cw W : closed_sides cw W -> (forall t, In t W -> used (fst t)) -> on_links (map (side_pt cw) W).
  Proof.
    intros (s & T & -> & C & E & _) U d I. rewrite (closed_edges cw s T C E) in I. apply in_map_iff in I as (t & <- & It). pose proof (used_valid g F0 _ (U t It)) as V.
    exists (fst t). split; auto. rewrite ed_seg by auto. destruct (Bool.eqb _ _); auto.
  Qed.

  (** ** around a node *)
  Lemma rot_const cw w (f : nat -> Z) :
    (forall i j, used i -> used j -> at_node w i -> at_node w j -> corner cw (in_side g cw w i) (out_side g cw w j) -> f i = f j) ->
    forall i u, used i -> used u -> at_node w i -> at_node w u -> f u = f i.
  Proof.
    intros H i u Ui Uu Ai Au. pose proof (used_valid g F0 _ Ui) as Vi.
    assert (Prev : forall x, used x -> at_node w x -> exists p, used p /\ at_node w p /\ corner cw (in_side g cw w p) (out_side g cw w x)).
    { intros x Ux Ax. pose proof (used_valid g F0 _ Ux) as Vx. destruct (corner_ex g pts G P F0 L0 (negb cw) (out_side g cw w x)) as (y & C); [exact Ux|].
      apply (corner_dual g pts G P) in C. rewrite negb_involutive in C. pose proof C as (Uy & _ & E & _). rewrite (tn_out g pts G cw w x Vx Ax) in E.
      exists (fst y). split; auto. split; [rewrite E; apply at_hn|]. rewrite <- (in_hn g pts G cw y w); auto. apply (used_valid g F0 _ Uy). }
    destruct (Nat.eq_dec u i) as [->|N]; auto.
    apply (fin_ind (fun x y => before (rf cw) (nd w i) (nd w x) (nd w y)) (fun x => used x /\ at_node w x /\ x <> i) (fun x => f x = f i) (seq 0 (length links))); auto.
    - exact Nat.eq_dec.
    - intros x. apply before_irrefl.
    - intros x y z (Ux & Ax & Nx) (Uy & Ay & Ny) (Uz & Az & Nz). pose proof (used_valid g F0 _ Ux). pose proof (used_valid g F0 _ Uy). pose proof (used_valid g F0 _ Uz).
      apply (before_trans _ (rf_cases cw)); try (split; [apply (nd_nz g pts G P); auto|apply (nd_sep g pts G P); auto]). apply (nd_nz g pts G P); auto.
    - intros x (Ux & _). apply in_seq. pose proof (used_valid g F0 _ Ux) as V. unfold WalkSides.valid in V. lia.
    - intros x (Ux & Ax & Nx) IH. destruct (Prev x Ux Ax) as (p & Up & Ap & C). rewrite <- (H p x Up Ux Ap Ax C). pose proof (used_valid g F0 _ Up) as Vp. pose proof (used_valid g F0 _ Ux) as Vx.
      destruct (Nat.eq_dec p i) as [->|Np]; auto. apply IH; auto.
      destruct C as (_ & _ & _ & C). rewrite (hn_in g pts G cw w p Vp Ap) in C. cbn [in_side out_side fst] in C. destruct C as [[C1 C2]|[C1 C2]].
      + exfalso. apply Np. symmetry. apply C2; auto.
      + pose proof (C2 i Ui Ai (fun X => Np (eq_sym X)) (fun X => Nx (eq_sym X))) as B.
        destruct (before_total _ (rf_cases cw) (nd w i) (nd_nz g pts G P w i Vi Ai) (nd w p) (nd w x)) as [B'|B']; auto.
        * split; [apply (nd_nz g pts G P); auto|apply (nd_sep g pts G P); auto].
        * split; [apply (nd_nz g pts G P); auto|apply (nd_sep g pts G P); auto].
        * apply (nd_sep g pts G P); auto.
        * exfalso. eapply (before_cyc (rf cw) (nd w i) (nd w x) (nd w p)); eauto using rf_cases; try (apply (nd_nz g pts G P); auto); apply (nd_sep g pts G P); auto.
  Qed.

  Lemma chained_nth cw : forall T s n x y, chained cw s T -> nth_error (s :: T) n = Some x -> nth_error (s :: T) (S n) = Some y -> corner cw x y.
  Proof.
    induction T as [|t T IH]; intros s n x y C Hx Hy; [destruct n; discriminate|]. destruct C as [C C'].
    destruct n as [|n]; simpl in Hx, Hy; [injection Hx as <-; injection Hy as <-; auto|]. eapply (IH t n); eauto.
  Qed.
  Lemma chained_skip cw : forall n T s x, chained cw s T -> nth_error (s :: T) n = Some x -> exists T', skipn n (s :: T) = x :: T' /\ chained cw x T'.
  Proof.
    induction n as [|n IH]; intros T s x C H.
    - simpl in H. injection H as <-. exists T. auto.
    - destruct T as [|t T]; [destruct n; discriminate|]. destruct C as [_ C]. simpl in H. destruct (IH T t x C H) as (T' & E & C'). exists T'. simpl in *. auto.
  Qed.
  Lemma chained_first cw : forall n T s, chained cw s T -> chained cw s (firstn n T).
  Proof. induction n as [|n IH]; intros [|t T] s C; simpl in *; auto. destruct C. auto. Qed.
  Lemma nth_skipn {X} n m (l : list X) : nth_error (skipn n l) m = nth_error l (n + m).
  Proof. revert l. induction n as [|n IH]; intro l; auto. destruct l; simpl; [destruct m; auto|]. apply IH. Qed.
  Lemma nth_first {X} : forall n m (l : list X), (n < m)%nat -> nth_error (firstn m l) n = nth_error l n.
  Proof. induction n as [|n IH]; intros [|m] [|x l] H; simpl; auto; try lia. apply IH. lia. Qed.
  Lemma last_nth {X} : forall (l : list X) d, nth_error (d :: l) (length l) = Some (last l d).
  Proof. induction l as [|x l IH]; intro d; auto. rewrite last_d. exact (IH x). Qed.

  Lemma node_of_pt s t cw : valid (fst s) -> valid (fst t) -> side_pt cw s = side_pt cw t -> tn cw s = tn cw t.
  Proof. intros V V' E. eapply (pn_inj pts NDp); [apply (pn_node g pts G (fst s)); auto; apply at_tn|apply (pn_node g pts G (fst t)); auto; apply at_tn|exact E]. Qed.

  Lemma sub_cnt cw X t : NoDup X -> (forall x, In x X -> valid (fst x)) -> valid (fst t) -> edges (map (side_pt cw) X) = map (ed cw) X ->
    cnt (map (side_pt cw) X) (ed cw t) = if in_dec prod_dec t X then 1 else 0.
  Proof.
    intros ND VX V E. destruct (in_dec prod_dec t X) as [I|N].
    - assert (In (ed cw t) (edges (map (side_pt cw) X))) by (rewrite E; apply in_map; auto). apply cnt_in in H.
      assert (cnt (map (side_pt cw) X) (ed cw t) <= 1); [|lia]. apply cnt_nodup. rewrite E. clear - ND VX G P. induction ND as [|x X N ND IH]; simpl; constructor; [|apply IH; intros; apply VX; simpl; auto].
      intro I. apply in_map_iff in I as (y & Ey & Iy). apply ed_inj in Ey; [subst; auto| |]; apply VX; simpl; auto.
    - pose proof (cnt_nonneg (map (side_pt cw) X) (ed cw t)). destruct (Z.eq_dec (cnt (map (side_pt cw) X) (ed cw t)) 0) as [|Z]; auto. exfalso.
      assert (I : In (ed cw t) (edges (map (side_pt cw) X))) by (apply cnt_in; lia). rewrite E in I. apply in_map_iff in I as (y & Ey & Iy). apply ed_inj in Ey; auto. congruence.
  Qed.

  (** the visits of a walk nest *)
  Lemma walk_nests cw W : good_walk (cw, W) ->
    forall i j k m p q, (i < j < k)%nat -> (k < m)%nat -> nth_error (map (side_pt cw) W) i = Some p -> nth_error (map (side_pt cw) W) j = Some q ->
    nth_error (map (side_pt cw) W) k = Some p -> nth_error (map (side_pt cw) W) m = Some q -> p = q.
  Proof.
    intros ((s & T & EW & C & Cl & _) & ND & Av) i j k m p q I1 I2 Hi Hj Hk Hm. cbn [fst snd] in *.
    destruct (pt_eq_dec p q) as [|Npq]; auto. exfalso.
    assert (Us : forall t, In t W -> used (fst t)) by (intros t It; apply (av_used g F0 L0); auto). assert (Vs : forall t, In t W -> valid (fst t)) by (intros t It; apply (used_valid g F0); auto).
    assert (Get : forall n r, nth_error (map (side_pt cw) W) n = Some r -> exists x, nth_error W n = Some x /\ side_pt cw x = r /\ In x W).
    { intros n r H. rewrite nth_error_map in H. destruct (nth_error W n) as [x|] eqn:E; [|discriminate]. exists x. simpl in H. split; auto. split; [congruence|]. eapply nth_error_In; eauto. }
    destruct (Get i p Hi) as (xi & Ei & Pi & Ii). destruct (Get j q Hj) as (xj & Ej & Pj & Ij). destruct (Get k p Hk) as (xk & Ek & Pk & Ik). destruct (Get m q Hm) as (xm & Em & Pm & Im).
    assert (Nik : tn cw xi = tn cw xk) by (apply node_of_pt; auto; congruence). assert (Njm : tn cw xj = tn cw xm) by (apply node_of_pt; auto; congruence).
    assert (Nij : tn cw xi <> tn cw xj).
    { intro X. apply Npq. rewrite <- Pi, <- Pj. unfold SliceWalk.side_pt. rewrite X. auto. }
    (* the closed part *)
    assert (Ei' := Ei). rewrite EW in Ei'. destruct (chained_skip cw i T s xi C Ei') as (R & ER & CR). rewrite <- EW in ER.
    set (T1 := firstn (k - i - 1) R). set (X := xi :: T1).
    assert (LW : forall n, nth_error (xi :: R) n = nth_error W (i + n)) by (intro n; rewrite <- ER; apply nth_skipn).
    assert (LX : forall n, (n < k - i)%nat -> nth_error X n = nth_error W (i + n)).
    { intros n Hn. rewrite <- LW. unfold X, T1. destruct n as [|n]; auto. simpl. apply nth_first. lia. }
    assert (Hlen : (k < length W)%nat) by (apply nth_error_Some; congruence).
    assert (LR : (length R = length W - i - 1)%nat) by (apply (f_equal (@length _)) in ER; rewrite skipn_length in ER; simpl in ER; lia).
    assert (L1 : length T1 = (k - i - 1)%nat) by (unfold T1; rewrite firstn_length; lia).
    assert (CX : chained cw xi T1) by (apply chained_first; auto).
    assert (InX : forall t, In t X <-> exists n, (i <= n < k)%nat /\ nth_error W n = Some t).
    { intro t. split.
      - intro I. apply In_nth_error in I as (n & Hn). assert (n < length X)%nat by (apply nth_error_Some; congruence). unfold X in H. simpl in H. exists (i + n)%nat. split; [lia|]. rewrite <- LX; auto. lia.
      - intros (n & Hn & E). apply (nth_error_In X (n - i)). rewrite LX by lia. replace (i + (n - i))%nat with n by lia. auto. }
    assert (XW : forall t, In t X -> In t W) by (intros t I; apply InX in I as (n & _ & E); eapply nth_error_In; eauto).
    assert (NDW : forall a b t, nth_error W a = Some t -> nth_error W b = Some t -> a = b).
    { intros a b t Ha Hb. apply (proj1 (NoDup_nth_error W) ND); [apply nth_error_Some; congruence|congruence]. }
    assert (CLast : hn cw (last T1 xi) = tn cw xi).
    { rewrite Nik. assert (E : nth_error W (k - 1) = Some (last T1 xi)) by (pose proof (last_nth T1 xi) as Y; fold X in Y; rewrite L1, LX in Y by lia; rewrite <- Y; f_equal; lia).
      assert (Ek2 : nth_error (s :: T) (S (k - 1)) = Some xk) by (rewrite <- EW; replace (S (k - 1)) with k by lia; auto). rewrite EW in E.
      destruct (chained_nth cw T s (k - 1) _ _ C E Ek2) as (_ & _ & E' & _). auto. }
    pose proof (closed_edges cw xi T1 CX CLast) as EX. fold X in EX. set (c := map (side_pt cw) X) in *.
    assert (NDX : NoDup X).
    { apply NoDup_nth_error. intros a b Ha E. assert (La : (a < k - i)%nat) by (unfold X in Ha; simpl in Ha; lia). rewrite (LX a La) in E.
      assert (Hb : (b < length X)%nat).
      { apply nth_error_Some. rewrite <- E. apply nth_error_Some. lia. }
      assert (Lb : (b < k - i)%nat) by (unfold X in Hb; simpl in Hb; lia). rewrite (LX b Lb) in E.
      destruct (nth_error W (i + a)) as [t|] eqn:Et; [|apply nth_error_None in Et; lia]. assert ((i + a = i + b)%nat) by (eapply NDW; eauto). lia. }
    assert (Cn : forall t, valid (fst t) -> cnt c (ed cw t) = if in_dec prod_dec t X then 1 else 0) by (intros t Vt; apply sub_cnt; auto).
    assert (OL : on_links c).
    { intros d I. rewrite EX in I. apply in_map_iff in I as (t & <- & It). apply XW in It. exists (fst t). split; auto. rewrite ed_seg by auto. destruct (Bool.eqb _ _); auto. }
    pose proof (kr_balanced cw c OL) as B.
    assert (Sup : forall u, valid u -> kr cw c (seg u) <> 0 -> used u).
    { intros u Vu K. rewrite kr_seg in K by auto. rewrite !Cn in K by auto. destruct (in_dec prod_dec (u, true) X) as [I|_]; [apply (Us _ (XW _ I))|]. destruct (in_dec prod_dec (u, false) X) as [I|_]; [apply (Us _ (XW _ I))|]. lia. }
    assert (Lc : forall t, In t W -> dsv (kr cw c) t = dsv (kr cw c) s).
    { intros t It. rewrite EW in It. destruct It as [<-|It]; auto. apply (dsv_const cw _ B Sup T); auto. }
    set (w := tn cw xj).
    set (inX := fun t => if in_dec prod_dec t X then 1 else 0).
    assert (Clo : forall t t', corner cw t t' -> hn cw t = w -> inX t = inX t').
    { intros t t' Ct Hw. unfold inX. destruct (in_dec prod_dec t X) as [I|N], (in_dec prod_dec t' X) as [I'|N']; auto; exfalso.
      - apply InX in I as (n & Hn & En). apply N'. destruct (Nat.eq_dec n (k - 1)) as [->|Nn].
        + exfalso. assert (Ek2 : nth_error (s :: T) (S (k - 1)) = Some xk) by (rewrite <- EW; replace (S (k - 1)) with k by lia; auto). rewrite EW in En.
          destruct (chained_nth cw T s (k - 1) _ _ C En Ek2) as (_ & _ & E' & _). apply Nij. rewrite Nik, E'. auto.
        + destruct (nth_error W (S n)) as [y|] eqn:Ey; [|apply nth_error_None in Ey; lia].
          assert (Cy : corner cw t y) by (rewrite EW in En, Ey; exact (chained_nth cw T s n t y C En Ey)). rewrite (corner_fun g pts G F0 cw t t' y Ct Cy). apply InX. exists (S n). split; [lia|auto].
      - apply InX in I' as (n & Hn & En). apply N. destruct (Nat.eq_dec n i) as [->|Nn].
        + exfalso. assert (t' = xi) by congruence. subst t'. destruct Ct as (_ & _ & E' & _). apply Nij. rewrite E'. auto.
        + destruct (nth_error W (n - 1)) as [y|] eqn:Ey; [|apply nth_error_None in Ey; lia].
          assert (Cy : corner cw y t') by (rewrite EW in En, Ey; apply (chained_nth cw T s (n - 1)); auto; replace (S (n - 1)) with n by lia; auto).
          rewrite (corner_inj g pts G P F0 cw t y t' Ct Cy). apply InX. exists (n - 1)%nat. split; [lia|auto]. }
    set (f := fun x => dsv (kr cw c) (in_side g cw w x) - inX (in_side g cw w x)).
    assert (Rot : forall a b, used a -> used b -> at_node w a -> at_node w b -> corner cw (in_side g cw w a) (out_side g cw w b) -> f a = f b).
    { intros a b Ua Ub Aa Ab Cab. pose proof (used_valid g F0 _ Ub) as Vb. unfold f.
      rewrite (dsv_corner g pts G P NDp F0 L0 cw (kr cw c) _ _ B Sup Cab). rewrite (Clo _ _ Cab) by (apply (hn_in g pts G); auto; apply (used_valid g F0); auto).
      rewrite (in_out g cw w b). unfold out_side. cbn [snd]. set (sd := Bool.eqb cw (na b =? w)%nat). pose proof (kr_diff cw c b sd Vb) as D. rewrite !Cn in D by auto. unfold inX. lia. }
    (* the two visits *)
    assert (V1 : exists y, nth_error W (j - 1) = Some y /\ corner cw y xj /\ In y X).
    { destruct (nth_error W (j - 1)) as [y|] eqn:Ey; [|apply nth_error_None in Ey; lia]. exists y. split; auto. split.
      - rewrite EW in Ej, Ey. apply (chained_nth cw T s (j - 1)); auto. replace (S (j - 1)) with j by lia. auto.
      - apply InX. exists (j - 1)%nat. split; [lia|auto]. }
    assert (V2 : exists y, nth_error W (m - 1) = Some y /\ corner cw y xm /\ ~ In y X).
    { assert (m < length W)%nat by (apply nth_error_Some; congruence). destruct (nth_error W (m - 1)) as [y|] eqn:Ey; [|apply nth_error_None in Ey; lia]. exists y. split; auto. split.
      - rewrite EW in Em, Ey. apply (chained_nth cw T s (m - 1)); auto. replace (S (m - 1)) with m by lia. auto.
      - intro I. apply InX in I as (n & Hn & En). assert (n = (m - 1)%nat) by (eapply NDW; eauto). lia. }
    destruct V1 as (y1 & E1 & C1 & In1). destruct V2 as (y2 & E2 & C2 & In2).
    assert (W1 : In y1 W) by (eapply nth_error_In; eauto). assert (W2 : In y2 W) by (eapply nth_error_In; eauto).
    assert (H1 : hn cw y1 = w) by (destruct C1 as (_ & _ & X1 & _); auto). assert (H2 : hn cw y2 = w) by (destruct C2 as (_ & _ & X2 & _); unfold w; rewrite Njm; auto).
    assert (F1 : f (fst y1) = dsv (kr cw c) s - 1).
    { unfold f. rewrite <- (in_hn g pts G cw y1 w) by auto. rewrite (Lc y1 W1). unfold inX. destruct (in_dec prod_dec y1 X); [auto|contradiction]. }
    assert (F2 : f (fst y2) = dsv (kr cw c) s - 0).
    { unfold f. rewrite <- (in_hn g pts G cw y2 w) by auto. rewrite (Lc y2 W2). unfold inX. destruct (in_dec prod_dec y2 X); [contradiction|auto]. }
    assert (Eq : f (fst y2) = f (fst y1)) by (apply (rot_const cw w f Rot); auto; [rewrite <- H1|rewrite <- H2]; apply at_hn). lia.
  Qed.

  (** ** simple loops of a walk *)
  Lemma top_left (l : list nat) : l <> [] -> (forall x, In x l -> valid x) ->
    exists t, In t l /\ forall x, In x l -> ~ pt_lt (sa (seg x)) (sa (seg t)) /\
      (sa (seg x) = sa (seg t) -> vx (vsub (sb (seg t)) (sa (seg t))) (vsub (sb (seg x)) (sa (seg x))) <= 0).
  Proof.
    induction l as [|a l IH]; [congruence|]. intros _ V. destruct l as [|b l].
    - exists a. split; [left; auto|]. intros x [<-|[]]. split; [apply pt_lt_irrefl|]. intros _. rewrite vx_self. lia.
    - destruct IH as (t & It & H); [discriminate|intros; apply V; right; auto|].
      assert (Va : valid a) by (apply V; left; auto). assert (Vt : valid t) by (apply V; right; auto).
      destruct (pt_total (sa (seg a)) (sa (seg t))) as [[L|E]|L].
      + exists a. split; [left; auto|]. intros x [<-|Ix]; [split; [apply pt_lt_irrefl|intros _; rewrite vx_self; lia]|]. destruct (H x Ix) as [H1 _]. split.
        * intro X. apply H1. eapply pt_lt_trans; eauto.
        * intro X. exfalso. apply H1. rewrite X. auto.
      + destruct (Z_le_gt_dec (vx (vsub (sb (seg t)) (sa (seg t))) (vsub (sb (seg a)) (sa (seg a)))) 0) as [Le|Gt].
        * exists t. split; [right; auto|]. intros x [<-|Ix]; auto. split; [rewrite E; apply pt_lt_irrefl|auto].
        * exists a. split; [left; auto|]. intros x [<-|Ix]; [split; [apply pt_lt_irrefl|intros _; rewrite vx_self; lia]|]. destruct (H x Ix) as [H1 H2]. rewrite E. split; auto. intro X. specialize (H2 X). rewrite <- E.
          assert (Vx : valid x) by (apply V; right; auto).
          eapply (lex_trans (vsub (sb (seg t)) (sa (seg t)))); [apply (seg_lexpos g P); auto|apply (seg_lexpos g P); auto|apply (seg_lexpos g P); auto| |exact H2]. lia.
      + exists t. split; [right; auto|]. intros x [<-|Ix]; auto. split.
        * intro X. eapply pt_lt_irrefl. eapply pt_lt_trans; eauto.
        * intro X. rewrite X in L. destruct (pt_lt_irrefl _ L).
  Qed.

  Lemma edges_nth (c : list pt) d : In d (edges c) -> exists a, (a < length c)%nat /\ nth_error c a = Some (fst d) /\ nth_error c (S a mod length c) = Some (snd d).
  Proof.
    destruct c as [|p r]; [intros []|]. unfold edges. intro I. apply In_nth_error in I as (a & Ha). exists a.
    assert (La : (a < length (p :: r))%nat).
    { assert (a < length (combine (p :: r) (r ++ [p])))%nat by (apply nth_error_Some; congruence). rewrite combine_length in H. lia. }
    assert (Hc : forall (X Y : Type) (l : list X) (m : list Y) n e, nth_error (combine l m) n = Some e -> nth_error l n = Some (fst e) /\ nth_error m n = Some (snd e)).
    { clear. intros X Y. induction l as [|x l IH]; intros [|y m] [|n] e H; simpl in *; try discriminate; auto. injection H as <-. auto. }
    apply Hc in Ha as [H1 H2]. split; auto. split; auto. cbn [length] in *. destruct (Nat.eq_dec a (length r)) as [->|N].
    - rewrite Nat.mod_same by lia. rewrite nth_error_app2 in H2 by lia. rewrite Nat.sub_diag in H2. simpl in *. auto.
    - rewrite Nat.mod_small by lia. rewrite nth_error_app1 in H2 by lia. simpl. auto.
  Qed.
  Lemma simple_edges (c : list pt) : NoDup c -> NoDup (edges c).
  Proof.
    intro N. apply (NoDup_map_inv fst). destruct c as [|p r]; [constructor|]. unfold edges. rewrite map_fst_combine; auto. rewrite app_length. simpl. lia.
  Qed.
  Lemma simple_no_flip (c : list pt) d : NoDup c -> (3 <= length c)%nat -> In d (edges c) -> ~ In (flip d) (edges c).
  Proof.
    intros N L I I'. apply edges_nth in I as (a & La & A1 & A2). apply edges_nth in I' as (b & Lb & B1 & B2). cbn [flip fst snd] in *.
    assert (E1 : b = (S a mod length c)%nat) by (apply (proj1 (NoDup_nth_error c) N); auto; congruence).
    assert (E2 : a = (S b mod length c)%nat) by (apply (proj1 (NoDup_nth_error c) N); auto; congruence).
    set (n := length c) in *. destruct (Nat.eq_dec (S a) n) as [X|X].
    - rewrite X, Nat.mod_same in E1 by lia. subst b. rewrite Nat.mod_small in E2 by lia. lia.
    - rewrite Nat.mod_small in E1 by lia. subst b. destruct (Nat.eq_dec (S (S a)) n) as [Y|Y].
      + rewrite Y, Nat.mod_same in E2 by lia. lia.
      + rewrite Nat.mod_small in E2 by lia. lia.
  Qed.
  Lemma ed_flip cw i b : valid i -> ed cw (i, negb b) = flip (ed cw (i, b)).
  Proof. intro V. rewrite !ed_seg by auto. cbn [fst snd]. destruct cw, b; reflexivity. Qed.

  Lemma loop_turns cw W c : good_walk (cw, W) -> NoDup c -> (3 <= length c)%nat -> (forall d, In d (edges c) -> In d (edges (map (side_pt cw) W))) ->
    exists L, (L = 0 \/ L = 1) /\ (forall q, contour_wind c q = 0 \/ contour_wind c q = sg cw * (2 * L - 1)) /\ exists q, contour_wind c q = sg cw * (2 * L - 1).
  Proof.
    intros GW ND L3 Sub. pose proof GW as (Cl & NDW & Av). cbn [fst snd] in *.
    assert (Us : forall t, In t W -> used (fst t)) by (intros t It; apply (av_used g F0 L0); auto). assert (Vs : forall t, In t W -> valid (fst t)) by (intros t It; apply (used_valid g F0); auto).
    pose proof (walk_on_links cw W Cl Us) as OW. assert (OL : on_links c) by (intros d I; apply OW; auto).
    destruct Cl as (s & T & EW & C & E & _). assert (EdW : edges (map (side_pt cw) W) = map (ed cw) W) by (rewrite EW; apply closed_edges; auto).
    assert (Mem : forall t, valid (fst t) -> In (ed cw t) (edges c) -> In t W).
    { intros t Vt I. apply Sub in I. rewrite EdW in I. apply in_map_iff in I as (x & Ex & Ix). apply ed_inj in Ex; auto. congruence. }
    pose proof (kr_balanced cw c OL) as B. set (k := kr cw c) in *.
    assert (One : forall i b, valid i -> In (ed cw (i, b)) (edges c) -> cnt c (ed cw (i, b)) = 1 /\ cnt c (ed cw (i, negb b)) = 0).
    { intros i b V I. split.
      - pose proof (cnt_nodup c (ed cw (i, b)) (simple_edges c ND)). pose proof (proj2 (cnt_in c _) I). lia.
      - pose proof (simple_no_flip c _ ND L3 I) as N. rewrite <- ed_flip in N by auto. rewrite <- cnt_in in N. pose proof (cnt_nonneg c (ed cw (i, negb b))). lia. }
    assert (Sup : forall i, valid i -> k (seg i) <> 0 -> exists b, In (ed cw (i, b)) (edges c) /\ In (i, b) W).
    { intros i V K. unfold k in K. rewrite kr_seg in K by auto. pose proof (cnt_nonneg c (ed cw (i, true))). pose proof (cnt_nonneg c (ed cw (i, false))).
      destruct (Z.eq_dec (cnt c (ed cw (i, true))) 0) as [Z|Z]; [exists false; assert (I : In (ed cw (i, false)) (edges c)) by (apply cnt_in; lia)|exists true; assert (I : In (ed cw (i, true)) (edges c)) by (apply cnt_in; lia)]; auto. }
    assert (SupU : forall i, valid i -> k (seg i) <> 0 -> used i) by (intros i V K; destruct (Sup i V K) as (b & _ & I); apply (Us _ I)).
    set (L := dsv k s). assert (Lc : forall t, In t W -> dsv k t = L).
    { intros t It. rewrite EW in It. destruct It as [<-|It]; auto. apply (dsv_const cw _ B SupU T); auto. }
    assert (Val : forall i b, valid i -> In (ed cw (i, b)) (edges c) -> dsv k (i, b) = L /\ dsv k (i, negb b) = L - 1).
    { intros i b V I. destruct (One i b V I) as [O1 O2]. pose proof (kr_diff cw c i b V) as D. rewrite O1, O2 in D. fold k in D. assert (dsv k (i, b) = L) by (apply Lc; apply Mem; auto). lia. }
    assert (Val2 : forall i, valid i -> k (seg i) <> 0 -> (top k i = L /\ bot k i = L - 1) \/ (top k i = L - 1 /\ bot k i = L)).
    { intros i V K. destruct (Sup i V K) as (b & I & _). destruct (Val i b V I) as [V1 V2]. unfold SliceWalk.dsv in V1, V2. cbn [fst snd] in V1, V2. destruct b; cbn [negb] in *; auto. }
    (* the support is not empty *)
    set (l := filter (fun i => negb (k (seg i) =? 0)) (seq 0 (length links))).
    assert (InL : forall i, In i l <-> valid i /\ k (seg i) <> 0).
    { intro i. unfold l, WalkSides.valid. rewrite filter_In, in_seq, negb_true_iff, Z.eqb_neq. split; intros [H1 H2]; split; auto; lia. }
    assert (NE : l <> []).
    { destruct c as [|p [|r c']]; [simpl in L3; lia|simpl in L3; lia|]. assert (I : In (p, r) (edges (p :: r :: c'))) by (left; reflexivity).
      pose proof (Sub _ I) as I'. rewrite EdW in I'. apply in_map_iff in I' as ([i b] & Ex & Ix). rewrite <- Ex in I. pose proof (Vs _ Ix) as V. cbn [fst] in V. destruct (One i b V I) as [O1 O2].
      intro X. assert (Il : In i l); [|rewrite X in Il; destruct Il]. apply InL. split; auto. unfold k. rewrite kr_seg by auto. destruct b; cbn [negb] in O2; lia. }
    destruct (top_left l NE) as (e & Ie & Mn); [intros x Ix; apply InL in Ix; tauto|]. apply InL in Ie as [Ve Ke].
    assert (T0 : top k e = 0).
    { apply (start_top ges A k (seg e) B (seg_in g e Ve)).
      - intros x Ix Kx. apply in_seg in Ix as (u & Vu & ->). apply (Mn u). apply InL. auto.
      - intros x Ix Kx Ex Nx. apply in_seg in Ix as (u & Vu & ->). destruct (Mn u) as [_ H]; [apply InL; auto|]. specialize (H Ex). unfold dir, other. rewrite pt_eqb_refl. rewrite Ex in H. rewrite Ex, pt_eqb_refl. exact H. }
    exists L. assert (HL : L = 0 \/ L = 1) by (destruct (Val2 e Ve Ke); lia). split; auto.
    assert (Wd : forall q, contour_wind c q = sg cw * wind (ch k) q) by (intro q; unfold k; rewrite (kr_wind cw c q OL); destruct cw; cbn [sg]; lia).
    split.
    - intro q. rewrite Wd. destruct (highest ges A (fun e => negb (k e =? 0)) q) as [H|(x & Ix & Px & H)].
      + left. rewrite H; [lia|]. intros y _ Ky. apply negb_true_iff, Z.eqb_neq. auto.
      + apply in_seg in Ix as (u & Vu & ->). rewrite (H k B) by (intros y _ Ky; apply negb_true_iff, Z.eqb_neq; auto).
        apply negb_true_iff, Z.eqb_neq in Px. destruct (Val2 u Vu Px) as [[-> _]|[-> _]]; destruct HL as [-> | ->]; destruct cw; cbn [sg]; lia.
    - destruct (side_pts g P k e Ve B) as [(q1 & Q1) (q2 & Q2)]. destruct (Val2 e Ve Ke) as [[V1 V2]|[V1 V2]]; destruct HL as [HL|HL]; [exists q2|exists q1|exists q1|exists q2]; rewrite Wd, ?Q1, ?Q2, ?V1, ?V2, HL; destruct cw; cbn [sg]; lia.
  Qed.
End Loops.
