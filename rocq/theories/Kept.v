(** * Keeping some of the contours of a result: shapes made of them. *)
From Verif Require Import Base Spec QLib SegmProofs PlanarGeo PlanarSum FillProofs FillCorrect ModelSegm ModelFill ModelFilter CoreResults ModelGraph GraphProofs ModelExtract ExtractProofs
  Rotation NextLink MoveLemma SectorLemma Sides WalkSides Orient Properties04 ModelBind BindProofs BindSweep Thin Nest Properties05 ContourResults Fewer Masked.
From Coq Require Import Permutation.
Open Scope Z_scope.

(** ** some of the contours *)
Section Kept.
  Variable g : graph.
  Hypothesis P : links_planar (g_links g).
  Variable kR : nat -> Z.
  Variable visI : list bool.
  Hypothesis KR : forall i, valid g i -> if not_visited visI i then kR i = 1 \/ kR i = -1 else kR i = 0.
  Variable clean : bool -> list pt -> list pt * bool.
  Variables clockwise simplify : bool.
  Variable ps : list piece.
  Hypothesis St : steps g kR visI clean clockwise simplify visI ps.
  Variable keep : piece -> bool.
  Notation ch := (ch (ges g)).
  Notation kx := (kx g).
  Notation C := (C g kR).
  Notation P_ := (at_ ps).
  Definition D (x : nat) : bool := existsb (fun p => negb (keep p) && memn x (p_used p)) ps.
  Definition kK (x : nat) : Z := if D x then 0 else kR x.

  Lemma D_used i p x : P_ i p -> In x (p_used p) -> D x = negb (keep p).
  Proof.
    intros Hp Ix. unfold D. destruct (keep p) eqn:K.
    - destruct (existsb _ ps) eqn:E; auto. apply existsb_exists in E as (p' & Ip & B). apply andb_true_iff in B as [B M]. apply memn_in in M.
      apply In_nth_error in Ip as (j & Hj). assert (i = j) by (eapply (disjoint g kR visI clean clockwise simplify ps St); eauto). subst j.
      assert (p' = p) by (unfold at_ in Hp; congruence). subst p'. rewrite K in B. discriminate.
    - apply existsb_exists. exists p. split; [eapply nth_error_In; eauto|]. rewrite K. cbn [negb andb]. apply memn_in; auto.
  Qed.
  Lemma one_piece (w : piece -> Z) x : (forall i p, P_ i p -> ~ In x (p_used p) -> w p = 0) -> forall i p, P_ i p -> In x (p_used p) -> zsum w ps = w p.
  Proof.
    intros Z0 i p Hp Ix. pose proof Hp as Hp'. apply nth_error_split in Hp' as (l1 & l2 & E & L).
    assert (A : forall j p', P_ j p' -> j <> i -> w p' = 0).
    { intros j p' Hj N. apply (Z0 j p' Hj). intro I. apply N. eapply (disjoint g kR visI clean clockwise simplify ps St); eauto. }
    rewrite E, zsum_app, zsum_cons. rewrite (zsum_zero w l1), (zsum_zero w l2); [lia| |].
    - intros p' I. apply In_nth_error in I as (j & Hj). apply (A (S i + j)%nat); [|lia]. unfold at_. rewrite E, nth_error_app2 by lia.
      replace (S i + j - length l1)%nat with (S j) by lia. auto.
    - intros p' I. apply In_nth_error in I as (j & Hj). assert (j < length l1)%nat by (apply nth_error_Some; congruence). apply (A j); [|lia].
      unfold at_. rewrite E, nth_error_app1; auto.
  Qed.
  Lemma kK_sum x : valid g x -> kK x = zsum (fun p => if keep p then fC kR (p_used p) x else 0) ps.
  Proof.
    intro V. destruct (not_visited visI x) eqn:U.
    - destruct (steps_all g kR visI clean clockwise simplify visI ps St x V U) as (i & p & Hp & Ix).
      rewrite (one_piece _ x) with (i := i) (p := p); auto.
      + unfold kK. rewrite (D_used i p x Hp Ix). unfold fC. apply memn_in in Ix. rewrite Ix. destruct (keep p); auto.
      + intros j p' _ N. unfold fC. apply memn_false in N. rewrite N. destruct (keep p'); auto.
    - specialize (KR x V). rewrite U in KR. unfold kK. rewrite zsum_zero; [destruct (D x); auto|]. intros p _. unfold fC. rewrite KR. destruct (keep p), (memn x (p_used p)); auto.
  Qed.
  Lemma kK_lin (a : xseg -> Z) : zsum (fun e => kx kK e * a e) (ges g) = zsum (fun p => if keep p then zsum (fun e => kx (fC kR (p_used p)) e * a e) (ges g) else 0) ps.
  Proof.
    transitivity (zsum (fun e => zsum (fun p => if keep p then kx (fC kR (p_used p)) e * a e else 0) ps) (ges g)).
    - apply zsum_ext. intros e I. apply in_seg in I as (x & V & ->). rewrite (kx_seg g P) by auto. rewrite (kK_sum x V), Z.mul_comm, <- zsum_mult.
      apply zsum_ext. intros p _. destruct (keep p); [|lia]. rewrite (kx_seg g P) by auto. lia.
    - rewrite zsum_swap. apply zsum_ext. intros p _. destruct (keep p); auto. apply zsum_zero; auto.
  Qed.
  Lemma kK_wind q : wind (ch (kx kK)) q = zsum (fun p => if keep p then wind (C p) q else 0) ps.
  Proof.
    pose proof (kK_lin (fun e => if under e q then 1 else 0)) as H. unfold wind, C, SectorLemma.ch. rewrite zsum_map. cbn [fst snd].
    transitivity (zsum (fun e => kx kK e * (if under e q then 1 else 0)) (ges g)); [apply zsum_ext; intros e _; destruct (under e q); lia|]. rewrite H.
    apply zsum_ext. intros p _. destruct (keep p); auto. rewrite zsum_map. cbn [fst snd]. apply zsum_ext; intros e _; destruct (under e q); lia.
  Qed.
  Lemma kK_bal : balanced (ch (kx kK)).
  Proof.
    intro v. pose proof (kK_lin (fun e => bz (pt_eqb (sb e) v) - bz (pt_eqb (sa e) v))) as H. unfold boundary, SectorLemma.ch. rewrite zsum_map. cbn [fst snd]. rewrite H.
    apply zsum_zero. intros p I. destruct (keep p); auto. apply In_nth_error in I as (i & Hp).
    pose proof (balC g kR visI clean clockwise simplify ps St i p Hp v) as B. unfold boundary, Nest.C, SectorLemma.ch in B. rewrite zsum_map in B. exact B.
  Qed.
  (** what encloses a contour that is kept is kept *)
  Hypothesis Km : forall i j p p' q, (i < j)%nat -> P_ i p -> P_ j p' -> wind (C p) q <> 0 -> wind (C p') q <> 0 -> keep p' = true -> keep p = true.
  Definition kept_sum (j : nat) (q : qpt) : Z := zsum (fun p => if keep p then wind (C p) q else 0) (firstn j ps).
  Lemma kept_S j p q : P_ j p -> kept_sum (S j) q = kept_sum j q + if keep p then wind (C p) q else 0.
  Proof.
    unfold at_, kept_sum. generalize ps. intro l. revert j. induction l as [|a l IH]; intros [|j] H; try discriminate; cbn [firstn nth_error] in *.
    - injection H as ->. rewrite !zsum_cons, !zsum_nil. lia.
    - specialize (IH j H). cbn [firstn] in IH. rewrite !zsum_cons. lia.
  Qed.
  Lemma kept_01 q : forall j, (j <= length ps)%nat ->
    (kept_sum j q = before_sum g kR ps j q /\ forall i p, (i < j)%nat -> P_ i p -> wind (C p) q <> 0 -> keep p = true) \/
    ((kept_sum j q = 0 \/ kept_sum j q = 1) /\ exists i p, (i < j)%nat /\ P_ i p /\ wind (C p) q <> 0 /\ keep p = false).
  Proof.
    induction j as [|j IH]; intro L; [left; split; [reflexivity|intros; lia]|].
    destruct (nth_error ps j) as [p|] eqn:Hp; [|apply nth_error_None in Hp; lia]. specialize (IH ltac:(lia)).
    rewrite (kept_S j p q Hp), (before_S g kR ps j p q Hp).
    destruct (Z.eq_dec (wind (C p) q) 0) as [Z0|Nz].
    - rewrite Z0. replace (if keep p then 0 else 0) with 0 by (destruct (keep p); auto). rewrite !Z.add_0_r. destruct IH as [[E A]|[E (i & p' & Li & X)]].
      + left. split; auto. intros i p' Li Hi N. destruct (Nat.eq_dec i j) as [->|]; [unfold at_ in Hi; congruence|]. apply (A i); auto; lia.
      + right. split; auto. exists i, p'. split; [lia|auto].
    - destruct IH as [[E A]|[E (i & p' & Li & Hi & Ni & Ki)]].
      + destruct (keep p) eqn:K.
        * left. split; [lia|]. intros i p' Li Hi N. destruct (Nat.eq_dec i j) as [->|]; [unfold at_ in Hi; congruence|]. apply (A i); auto; lia.
        * right. split; [|exists j, p; auto]. rewrite E, Z.add_0_r, (sum_before g P kR visI KR clean clockwise simplify ps St j p q Hp Nz). destruct (p_hole p); auto.
      + assert (K : keep p = false).
        { destruct (keep p) eqn:K; auto. rewrite (Km i j p' p q Li Hi Hp Ni Nz K) in Ki. discriminate. }
        rewrite K, Z.add_0_r. right. split; auto. exists i, p'. split; [lia|auto].
  Qed.
  Lemma kept_wind q : wind (ch (kx kK)) q = 0 \/ wind (ch (kx kK)) q = 1.
  Proof.
    rewrite kK_wind. assert (E : zsum (fun p => if keep p then wind (C p) q else 0) ps = kept_sum (length ps) q) by (unfold kept_sum; rewrite firstn_all; auto).
    rewrite E. destruct (kept_01 q (length ps) (Nat.le_refl _)) as [[X _]|[X _]]; auto. rewrite X.
    destruct (last_enclosing g P kR visI KR clean clockwise simplify ps St q (length ps) (Nat.le_refl _)) as [[-> _]|(o & p & _ & _ & _ & -> & _)]; auto. destruct (p_hole p); auto.
  Qed.
End Kept.
