(** * Winding numbers of contours with real coordinates: triangles, rectangles, the effect of moving vertices. *)
From Verif Require Import Base Spec QLib SplitNear ModelMesh.
From Coq Require Import Reals Lra Psatz Qreals.
From Verif Require Import RealMesh RealJoin.
Open Scope R_scope.

(** ** Definitions *)
Notation rpt := (R * R)%type.
(** the doubled area of the triangle [a b p]: positive if [p] is to the left of the way from [a] to [b] *)
Definition turn3 (a b p : rpt) : R := (fst b - fst a) * (snd p - snd a) - (snd b - snd a) * (fst p - fst a).
Definition rleft (q p : rpt) : bool := Rleb (fst p) (fst q).
Definition rheight (q a b : rpt) : R := snd a + (snd b - snd a) / (fst b - fst a) * (fst q - fst a).
(** as [qedge_wind] of FloatSpace *)
Definition rwind (q : rpt) (e : rpt * rpt) : Z :=
  ((bz (rleft q (fst e)) - bz (rleft q (snd e))) * bz (Rltb (rheight q (fst e) (snd e)) (snd q)))%Z.
(** [q], moved down and (less) to the right by an infinitesimal amount, is to the left of [a b] *)
Definition hleft (a b q : rpt) : Prop :=
  0 < turn3 a b q \/ (turn3 a b q = 0 /\ (fst b < fst a \/ (fst b = fst a /\ snd b < snd a))).
Definition wind3 (q a b c : rpt) : Z := (rwind q (a, b) + rwind q (b, c) + rwind q (c, a))%Z.

Lemma rleft_cases q p : (rleft q p = true /\ fst p <= fst q) \/ (rleft q p = false /\ fst q < fst p).
Proof. unfold rleft. destruct (Rleb (fst p) (fst q)) eqn:E; [left; split; auto; apply Rleb_true; auto|right; split; auto; apply Rleb_false; auto]. Qed.
Lemma rheight_turn q a b : fst a < fst b -> rheight q a b < snd q <-> 0 < turn3 a b q.
Proof.
  intro L. unfold rheight, turn3. set (s := (snd b - snd a) / (fst b - fst a)).
  assert (E : snd b - snd a = s * (fst b - fst a)) by (unfold s; field; lra). rewrite E. split; intro H; nra.
Qed.
Lemma rheight_sym q a b : fst a <> fst b -> rheight q b a = rheight q a b.
Proof. intro N. unfold rheight. field. split; lra. Qed.
Lemma turn3_swap a b q : turn3 b a q = - turn3 a b q.
Proof. unfold turn3. ring. Qed.
Lemma rwind_up q a b : rleft q a = true -> rleft q b = false -> (0 < turn3 a b q /\ rwind q (a, b) = 1%Z) \/ (turn3 a b q <= 0 /\ rwind q (a, b) = 0%Z).
Proof.
  intros A B. unfold rwind. cbn [fst snd]. rewrite A, B. destruct (rleft_cases q a) as [[_ A']|[X _]], (rleft_cases q b) as [[X' _]|[_ B']]; try congruence.
  pose proof (rheight_turn q a b ltac:(lra)) as H. destruct (Rltb (rheight q a b) (snd q)) eqn:E; [left|right]; split; try reflexivity.
  - apply H. apply Rltb_true. auto.
  - apply Rltb_false in E. apply Rnot_lt_le. intro L. apply H in L. lra.
Qed.
Lemma rwind_anti q a b : rwind q (b, a) = (- rwind q (a, b))%Z.
Proof.
  unfold rwind. cbn [fst snd]. destruct (rleft q a) eqn:A, (rleft q b) eqn:B; cbn [bz]; try lia.
  - rewrite (rheight_sym q a b); [lia|]. destruct (rleft_cases q a) as [[_ A']|[X _]], (rleft_cases q b) as [[X' _]|[_ B']]; try congruence. lra.
  - rewrite (rheight_sym q a b); [lia|]. destruct (rleft_cases q a) as [[X _]|[_ A']], (rleft_cases q b) as [[_ B']|[X' _]]; try congruence. lra.
Qed.
Lemma rwind_down q a b : rleft q a = false -> rleft q b = true -> (turn3 a b q < 0 /\ rwind q (a, b) = (-1)%Z) \/ (0 <= turn3 a b q /\ rwind q (a, b) = 0%Z).
Proof.
  intros A B. rewrite (rwind_anti q b a). destruct (rwind_up q b a B A) as [[H ->]|[H ->]]; rewrite turn3_swap in H; [left|right]; split; auto; lra.
Qed.
Lemma rwind_same q a b : rleft q a = rleft q b -> rwind q (a, b) = 0%Z.
Proof. intro H. unfold rwind. cbn [fst snd]. rewrite H. lia. Qed.
Lemma rwind_self q a : rwind q (a, a) = 0%Z.
Proof. apply rwind_same. reflexivity. Qed.

(** ** Triangles *)
Section Triangle.
  Variables q a b c : rpt.
  Lemma turn3_sum : turn3 a b q + turn3 b c q + turn3 c a q = turn3 a b c.
  Proof. unfold turn3. ring. Qed.
  Lemma turn3_x : turn3 b c q * (fst a - fst q) + turn3 c a q * (fst b - fst q) + turn3 a b q * (fst c - fst q) = 0.
  Proof. unfold turn3. ring. Qed.
End Triangle.
Lemma turn3_rot a b c : turn3 b c a = turn3 a b c.
Proof. unfold turn3. ring. Qed.
Definition in3 (q a b c : rpt) : Prop := hleft a b q /\ hleft b c q /\ hleft c a q.
Lemma in3_rot q a b c : in3 q a b c -> in3 q b c a.
Proof. unfold in3. tauto. Qed.
Lemma wind3_rot q a b c : wind3 q b c a = wind3 q a b c.
Proof. unfold wind3. lia. Qed.
Lemma hleft_nonneg a b q : hleft a b q -> 0 <= turn3 a b q.
Proof. intros [H|[H _]]; lra. Qed.

(** one corner on one side of the vertical line through [q] *)
Lemma tri_one_left q a b c : 0 < turn3 a b c -> rleft q a = true -> rleft q b = false -> rleft q c = false -> (wind3 q a b c = 1%Z /\ in3 q a b c) \/ (wind3 q a b c = 0%Z /\ ~ in3 q a b c).
Proof.
  intros P A B C. unfold wind3. rewrite (rwind_same q b c) by congruence.
  destruct (rleft_cases q a) as [[_ A']|[X _]], (rleft_cases q b) as [[X' _]|[_ B']], (rleft_cases q c) as [[X'' _]|[_ C']]; try congruence.
  pose proof (turn3_sum q a b c) as S. pose proof (turn3_x q a b c) as X.
  destruct (rwind_up q a b A B) as [[H1 ->]|[H1 ->]], (rwind_down q c a C A) as [[H2 ->]|[H2 ->]]; [right|left|exfalso|right].
  - split; [reflexivity|]. intros (_ & _ & [L|[L _]]); lra.
  - split; [reflexivity|]. split; [left; auto|]. split; [left|destruct H2 as [H2|H2]; [left; auto|right; split; [auto|left; lra]]].
    assert (0 <= turn3 c a q * (fst b - fst q)) by (apply Rmult_le_pos; lra). assert (0 < turn3 a b q * (fst c - fst q)) by (apply Rmult_lt_0_compat; lra).
    destruct (Rle_or_lt (turn3 b c q) 0) as [L|L]; auto. exfalso. assert (0 <= turn3 b c q * (fst a - fst q)) by nra. lra.
  - assert (0 < turn3 b c q) by lra. assert (turn3 b c q * (fst a - fst q) <= 0) by nra. assert (turn3 c a q * (fst b - fst q) < 0) by nra. assert (turn3 a b q * (fst c - fst q) <= 0) by nra. lra.
  - split; [reflexivity|]. intros ([L|[L [L'|[L' _]]]] & _ & _); lra.
Qed.
Lemma tri_one_right q a b c : 0 < turn3 a b c -> rleft q a = false -> rleft q b = true -> rleft q c = true -> (wind3 q a b c = 1%Z /\ in3 q a b c) \/ (wind3 q a b c = 0%Z /\ ~ in3 q a b c).
Proof.
  intros P A B C. unfold wind3. rewrite (rwind_same q b c) by congruence.
  destruct (rleft_cases q a) as [[X _]|[_ A']], (rleft_cases q b) as [[_ B']|[X' _]], (rleft_cases q c) as [[_ C']|[X'' _]]; try congruence.
  pose proof (turn3_sum q a b c) as S. pose proof (turn3_x q a b c) as X.
  destruct (rwind_down q a b A B) as [[H1 ->]|[H1 ->]], (rwind_up q c a C A) as [[H2 ->]|[H2 ->]]; [right|exfalso|left|right].
  - split; [reflexivity|]. intros ([L|[L _]] & _ & _); lra.
  - assert (0 < turn3 b c q) by lra. assert (0 < turn3 b c q * (fst a - fst q)) by (apply Rmult_lt_0_compat; lra). assert (0 <= turn3 c a q * (fst b - fst q)) by nra. assert (0 <= turn3 a b q * (fst c - fst q)) by nra. lra.
  - split; [reflexivity|]. split; [destruct H1 as [H1|H1]; [left; auto|right; split; [auto|left; lra]]|]. split; [|left; auto].
    assert (turn3 a b q * (fst c - fst q) <= 0) by nra. assert (turn3 c a q * (fst b - fst q) <= 0) by nra.
    destruct (Rtotal_order (turn3 b c q) 0) as [L|[L|L]]; [exfalso; assert (turn3 b c q * (fst a - fst q) < 0) by nra; lra| |left; auto].
    right. split; auto. rewrite L in X. assert (Z1 : turn3 c a q * (fst b - fst q) = 0) by lra. assert (Eb : fst b = fst q) by (apply Rmult_integral in Z1 as [Z1|Z1]; lra).
    destruct (Rtotal_order (fst c) (fst b)) as [L'|[L'|L']]; [left; lra| |lra]. right. split; auto.
    assert (E : turn3 a b c = (fst b - fst a) * (snd c - snd b)) by (unfold turn3; rewrite L'; ring). rewrite E in P. nra.
  - split; [reflexivity|]. intros (_ & _ & [L|[L [L'|[L' _]]]]); lra.
Qed.
Lemma tri_all_left_aux q a b c : 0 < turn3 a b c -> fst a <= fst q -> fst b <= fst q -> fst c <= fst q -> in3 q a b c -> turn3 a b q = 0 -> False.
Proof.
  intros P A B C (H1 & H2 & H3) Z. destruct H1 as [H1|[_ H1]]; [lra|]. pose proof (hleft_nonneg _ _ _ H2) as N2. pose proof (hleft_nonneg _ _ _ H3) as N3.
  pose proof (turn3_sum q a b c) as S. pose proof (turn3_x q a b c) as X.
  assert (M2 : turn3 b c q * (fst a - fst q) <= 0) by nra. assert (M3 : turn3 c a q * (fst b - fst q) <= 0) by nra. rewrite Z in X, S.
  assert (Y2 : turn3 b c q * (fst a - fst q) = 0) by lra. assert (Y3 : turn3 c a q * (fst b - fst q) = 0) by lra.
  apply Rmult_integral in Y2, Y3.
  destruct H2 as [H2|[Z2 H2]], H3 as [H3|[Z3 H3]].
  - destruct Y2, Y3; try lra. assert (E : fst b = fst a) by lra. destruct H1 as [H1|[_ H1]]; [lra|].
    assert (F : turn3 a b c = (snd a - snd b) * (fst c - fst a)) by (unfold turn3; rewrite E; ring). rewrite F in P. nra.
  - (* q = a *) destruct Y2 as [Y2|Y2]; [lra|]. destruct H1 as [H1|[E H1]], H3 as [H3|[E' H3]]; try lra.
    + assert (F : turn3 a b c = (fst b - fst a) * (snd c - snd a)) by (unfold turn3; rewrite <- E'; ring). rewrite F in P. nra.
    + assert (F : turn3 a b c = 0) by (unfold turn3; rewrite E, <- E'; ring). lra.
  - destruct Y3 as [Y3|Y3]; [lra|]. destruct H1 as [H1|[E H1]], H2 as [H2|[E' H2]]; try lra.
    + assert (F : turn3 a b c = (snd a - snd b) * (fst c - fst a)) by (unfold turn3; rewrite E; ring). rewrite F in P. nra.
    + assert (F : turn3 a b c = 0) by (unfold turn3; rewrite E', E; ring). lra.
  - lra.
Qed.
Lemma tri_all q a b c : 0 < turn3 a b c -> rleft q a = rleft q b -> rleft q b = rleft q c -> ~ in3 q a b c.
Proof.
  intros P AB BC I. pose proof I as (H1 & H2 & H3). pose proof (hleft_nonneg _ _ _ H1) as N1. pose proof (hleft_nonneg _ _ _ H2) as N2. pose proof (hleft_nonneg _ _ _ H3) as N3.
  pose proof (turn3_sum q a b c) as S. pose proof (turn3_x q a b c) as X.
  destruct (rleft_cases q a) as [[A A']|[A A']], (rleft_cases q b) as [[B B']|[B B']], (rleft_cases q c) as [[C C']|[C C']]; try congruence.
  - destruct (Req_dec (turn3 a b q) 0) as [Z1|Z1]; [exact (tri_all_left_aux q a b c P A' B' C' I Z1)|].
    destruct (Req_dec (turn3 b c q) 0) as [Z2|Z2]; [rewrite <- turn3_rot in P; exact (tri_all_left_aux q b c a P B' C' A' (in3_rot _ _ _ _ I) Z2)|].
    destruct (Req_dec (turn3 c a q) 0) as [Z3|Z3]; [rewrite <- turn3_rot, <- turn3_rot in P; exact (tri_all_left_aux q c a b P C' A' B' (in3_rot _ _ _ _ (in3_rot _ _ _ _ I)) Z3)|].
    assert (turn3 b c q * (fst a - fst q) <= 0) by nra. assert (turn3 c a q * (fst b - fst q) <= 0) by nra. assert (turn3 a b q * (fst c - fst q) <= 0) by nra.
    assert (Y1 : turn3 b c q * (fst a - fst q) = 0) by lra. assert (Y2 : turn3 c a q * (fst b - fst q) = 0) by lra. assert (Y3 : turn3 a b q * (fst c - fst q) = 0) by lra.
    apply Rmult_integral in Y1, Y2, Y3. destruct Y1, Y2, Y3; try lra. assert (E : turn3 a b c = 0) by (unfold turn3; replace (fst b) with (fst a) by lra; replace (fst c) with (fst a) by lra; ring). lra.
  - assert (0 <= turn3 b c q * (fst a - fst q)) by (apply Rmult_le_pos; lra). assert (0 <= turn3 c a q * (fst b - fst q)) by (apply Rmult_le_pos; lra). assert (0 <= turn3 a b q * (fst c - fst q)) by (apply Rmult_le_pos; lra).
    assert (Y1 : turn3 b c q * (fst a - fst q) = 0) by lra. assert (Y2 : turn3 c a q * (fst b - fst q) = 0) by lra. assert (Y3 : turn3 a b q * (fst c - fst q) = 0) by lra.
    apply Rmult_integral in Y1, Y2, Y3. destruct Y1, Y2, Y3; lra.
Qed.
(** A counter-clockwise triangle winds once around the points inside, and not around the points outside. *)
Theorem tri_wind q a b c : 0 < turn3 a b c -> (wind3 q a b c = 1%Z /\ in3 q a b c) \/ (wind3 q a b c = 0%Z /\ ~ in3 q a b c).
Proof.
  intro P.
  assert (R1 : 0 < turn3 b c a) by (rewrite turn3_rot; auto). assert (R2 : 0 < turn3 c a b) by (rewrite turn3_rot; auto).
  assert (K1 : (wind3 q b c a = 1%Z /\ in3 q b c a) \/ (wind3 q b c a = 0%Z /\ ~ in3 q b c a) -> (wind3 q a b c = 1%Z /\ in3 q a b c) \/ (wind3 q a b c = 0%Z /\ ~ in3 q a b c)) by (rewrite wind3_rot; unfold in3; tauto).
  assert (K2 : (wind3 q c a b = 1%Z /\ in3 q c a b) \/ (wind3 q c a b = 0%Z /\ ~ in3 q c a b) -> (wind3 q a b c = 1%Z /\ in3 q a b c) \/ (wind3 q a b c = 0%Z /\ ~ in3 q a b c)) by (rewrite <- (wind3_rot q c a b); unfold in3; tauto).
  destruct (rleft q a) eqn:A, (rleft q b) eqn:B, (rleft q c) eqn:C.
  - right. split; [unfold wind3; rewrite !rwind_same by congruence; reflexivity|]. apply tri_all; congruence.
  - apply K2, tri_one_right; auto.
  - apply K1, tri_one_right; auto.
  - apply tri_one_left; auto.
  - apply tri_one_right; auto.
  - apply K1, tri_one_left; auto.
  - apply K2, tri_one_left; auto.
  - right. split; [unfold wind3; rewrite !rwind_same by congruence; reflexivity|]. apply tri_all; congruence.
Qed.
Lemma tri_flat_left q a b c : turn3 a b c = 0 -> rleft q a = true -> rleft q b = false -> rleft q c = false -> wind3 q a b c = 0%Z.
Proof.
  intros P A B C. unfold wind3. rewrite (rwind_same q b c) by congruence.
  destruct (rleft_cases q a) as [[_ A']|[X _]], (rleft_cases q b) as [[X' _]|[_ B']], (rleft_cases q c) as [[X'' _]|[_ C']]; try congruence.
  pose proof (turn3_sum q a b c) as S. pose proof (turn3_x q a b c) as X. rewrite P in S.
  assert (Y : turn3 c a q * (fst b - fst a) + turn3 a b q * (fst c - fst a) = 0) by (replace (turn3 b c q) with (- turn3 a b q - turn3 c a q) in X by lra; lra).
  destruct (rwind_up q a b A B) as [[H1 ->]|[H1 ->]], (rwind_down q c a C A) as [[H2 ->]|[H2 ->]]; try reflexivity; exfalso; nra.
Qed.
Lemma tri_flat_right q a b c : turn3 a b c = 0 -> rleft q a = false -> rleft q b = true -> rleft q c = true -> wind3 q a b c = 0%Z.
Proof.
  intros P A B C. unfold wind3. rewrite (rwind_same q b c) by congruence.
  destruct (rleft_cases q a) as [[X _]|[_ A']], (rleft_cases q b) as [[_ B']|[X' _]], (rleft_cases q c) as [[_ C']|[X'' _]]; try congruence.
  pose proof (turn3_sum q a b c) as S. pose proof (turn3_x q a b c) as X. rewrite P in S.
  assert (Y : turn3 c a q * (fst b - fst a) + turn3 a b q * (fst c - fst a) = 0) by (replace (turn3 b c q) with (- turn3 a b q - turn3 c a q) in X by lra; lra).
  destruct (rwind_down q a b A B) as [[H1 ->]|[H1 ->]], (rwind_up q c a C A) as [[H2 ->]|[H2 ->]]; try reflexivity; exfalso; nra.
Qed.
Theorem tri_flat q a b c : turn3 a b c = 0 -> wind3 q a b c = 0%Z.
Proof.
  intro P. assert (R1 : turn3 b c a = 0) by (rewrite turn3_rot; auto). assert (R2 : turn3 c a b = 0) by (rewrite turn3_rot; auto).
  destruct (rleft q a) eqn:A, (rleft q b) eqn:B, (rleft q c) eqn:C; try (unfold wind3; rewrite !rwind_same by congruence; reflexivity).
  - rewrite (wind3_rot q c a b). apply tri_flat_right; auto.
  - rewrite <- wind3_rot. apply tri_flat_right; auto.
  - apply tri_flat_left; auto.
  - apply tri_flat_right; auto.
  - rewrite <- wind3_rot. apply tri_flat_left; auto.
  - rewrite (wind3_rot q c a b). apply tri_flat_left; auto.
Qed.
Lemma tri_nonneg q a b c : 0 <= turn3 a b c -> (0 <= wind3 q a b c <= 1)%Z.
Proof. intros [P|P]; [destruct (tri_wind q a b c P) as [[-> _]|[-> _]]; lia|rewrite tri_flat by auto; lia]. Qed.
Lemma wind3_flip q a b c : wind3 q a c b = (- wind3 q a b c)%Z.
Proof. unfold wind3. rewrite (rwind_anti q c a), (rwind_anti q b c), (rwind_anti q a b). lia. Qed.
(** a point of a segment divides it *)
Lemma rwind_split q a b c : turn3 a b c = 0 -> rwind q (a, c) = (rwind q (a, b) + rwind q (b, c))%Z.
Proof. intro H. pose proof (tri_flat q a b c H) as T. unfold wind3 in T. rewrite (rwind_anti q a c) in T. lia. Qed.

(** ** Half planes and rectangles *)
Definition lexpos (c x y : R) : Prop := 0 < c \/ (c = 0 /\ (x < 0 \/ (x = 0 /\ y < 0))).
Lemma hleft_lex a b q : hleft a b q <-> lexpos (turn3 a b q) (fst b - fst a) (snd b - snd a).
Proof. unfold hleft, lexpos. split; (intros [H|[H [L|[L L']]]]; [left; auto|right; split; auto; left; lra|right; split; auto; right; split; lra]). Qed.
Lemma lex_add c x y c' x' y' : lexpos c x y -> lexpos c' x' y' -> lexpos (c + c') (x + x') (y + y').
Proof. unfold lexpos. intros [H|[H [L|[L L']]]] [K|[K [M|[M M']]]]; try (left; lra); right; (split; [lra|]); try (left; lra); right; split; lra. Qed.
Lemma lex_scale k c x y : 0 < k -> lexpos c x y -> lexpos (k * c) (k * x) (k * y).
Proof. intros K [H|[H [L|[L L']]]]; [left; apply Rmult_lt_0_compat; auto|right; rewrite H, Rmult_0_r; split; auto; left; nra|right; rewrite H, L, !Rmult_0_r; split; auto; right; split; auto; nra]. Qed.
Lemma lex_unscale k c x y : 0 < k -> lexpos (k * c) (k * x) (k * y) -> lexpos c x y.
Proof.
  intros K H. apply (lex_scale (/ k)) in H; [|apply Rinv_0_lt_compat; auto]. replace (/ k * (k * c)) with c in H by (field; lra). replace (/ k * (k * x)) with x in H by (field; lra). replace (/ k * (k * y)) with y in H by (field; lra). exact H.
Qed.
Lemma lex_comb k1 k2 k3 c1 x1 y1 c2 x2 y2 c3 x3 y3 : 0 <= k1 -> 0 <= k2 -> 0 <= k3 -> 0 < k1 + k2 + k3 ->
  lexpos c1 x1 y1 -> lexpos c2 x2 y2 -> lexpos c3 x3 y3 -> lexpos (k1 * c1 + k2 * c2 + k3 * c3) (k1 * x1 + k2 * x2 + k3 * x3) (k1 * y1 + k2 * y2 + k3 * y3).
Proof.
  intros [K1|K1] [K2|K2] [K3|K3] S L1 L2 L3; try lra;
    try (apply (lex_scale k1) in L1; [|assumption]); try (apply (lex_scale k2) in L2; [|assumption]); try (apply (lex_scale k3) in L3; [|assumption]);
    rewrite <- ?K1, <- ?K2, <- ?K3, ?Rmult_0_l, ?Rplus_0_l, ?Rplus_0_r; repeat apply lex_add; assumption.
Qed.
(** a triangle with its three corners in a half plane (not all on its border) lies in the half plane *)
Lemma tri_half q a b c u v : 0 < turn3 a b c -> 0 <= turn3 u v a -> 0 <= turn3 u v b -> 0 <= turn3 u v c -> u <> v -> in3 q a b c -> hleft u v q.
Proof.
  intros P A B C N (H1 & H2 & H3). apply hleft_lex in H1, H2, H3. apply hleft_lex. apply (lex_unscale (turn3 a b c)); auto.
  assert (X : turn3 a b c * (fst v - fst u) = turn3 u v a * (fst c - fst b) + turn3 u v b * (fst a - fst c) + turn3 u v c * (fst b - fst a)) by (unfold turn3; ring).
  assert (Y : turn3 a b c * (snd v - snd u) = turn3 u v a * (snd c - snd b) + turn3 u v b * (snd a - snd c) + turn3 u v c * (snd b - snd a)) by (unfold turn3; ring).
  assert (S : 0 < turn3 u v a + turn3 u v b + turn3 u v c).
  { destruct (Rle_or_lt (turn3 u v a + turn3 u v b + turn3 u v c) 0) as [L|L]; auto. exfalso. apply N. replace (turn3 u v a) with 0 in X, Y by lra. replace (turn3 u v b) with 0 in X, Y by lra. replace (turn3 u v c) with 0 in X, Y by lra.
    destruct u as [u1 u2], v as [v1 v2]. cbn [fst snd] in *. f_equal; apply (Rmult_eq_reg_l (turn3 a b c)); lra. }
  rewrite X, Y. replace (turn3 a b c * turn3 u v q) with (turn3 u v a * turn3 b c q + turn3 u v b * turn3 c a q + turn3 u v c * turn3 a b q) by (unfold turn3; ring).
  apply lex_comb; auto.
Qed.
Lemma hleft_total a b q : a <> b -> (hleft a b q /\ ~ hleft b a q) \/ (hleft b a q /\ ~ hleft a b q).
Proof.
  intro N. unfold hleft. rewrite (turn3_swap a b q). destruct (Rtotal_order (turn3 a b q) 0) as [L|[L|L]].
  - right. split; [left; lra|]. intros [H|[H _]]; lra.
  - assert (D : fst a < fst b \/ fst b < fst a \/ (fst a = fst b /\ (snd a < snd b \/ snd b < snd a))).
    { destruct (Rtotal_order (fst a) (fst b)) as [X|[X|X]]; auto. destruct (Rtotal_order (snd a) (snd b)) as [Y|[Y|Y]]; auto 6. exfalso. apply N. destruct a, b. cbn in *. congruence. }
    destruct D as [D|[D|[D [D'|D']]]].
    + right. split; [right; split; [lra|left; auto]|]. intros [H|[H [K|[K _]]]]; lra.
    + left. split; [right; split; [lra|left; auto]|]. intros [H|[H [K|[K _]]]]; lra.
    + right. split; [right; split; [lra|right; split; auto]|]. intros [H|[H [K|[K K']]]]; lra.
    + left. split; [right; split; [lra|right; split; auto]|]. intros [H|[H [K|[K K']]]]; lra.
  - left. split; [left; lra|]. intros [H|[H _]]; lra.
Qed.
Definition wind4 (q a b c d : rpt) : Z := (rwind q (a, b) + rwind q (b, c) + rwind q (c, d) + rwind q (d, a))%Z.
Definition in4 (q a b c d : rpt) : Prop := hleft a b q /\ hleft b c q /\ hleft c d q /\ hleft d a q.
Lemma wind4_split q a b c d : wind4 q a b c d = (wind3 q a b c + wind3 q a c d)%Z.
Proof. unfold wind4, wind3. rewrite (rwind_anti q a c). lia. Qed.
Lemma turn3_ne a b c : 0 < turn3 a b c -> a <> b /\ b <> c /\ c <> a.
Proof. intro P. repeat split; intro E; subst; unfold turn3 in P; ring_simplify in P; lra. Qed.
Theorem quad_wind q a b c d : 0 < turn3 a b c -> 0 < turn3 a c d -> 0 < turn3 b c d -> 0 < turn3 d a b ->
  (wind4 q a b c d = 1%Z /\ in4 q a b c d) \/ (wind4 q a b c d = 0%Z /\ ~ in4 q a b c d).
Proof.
  intros P1 P2 P3 P4. rewrite wind4_split. destruct (turn3_ne _ _ _ P1) as (N1 & N2 & N3), (turn3_ne _ _ _ P2) as (N4 & N5 & N6).
  assert (K1 : in3 q a b c -> in4 q a b c d).
  { intro I. pose proof I as (H1 & H2 & H3). split; auto. split; auto. split.
    - apply (tri_half q a b c); auto; [rewrite <- turn3_rot, <- turn3_rot; lra|rewrite <- turn3_rot, <- turn3_rot; lra|unfold turn3; lra].
    - apply (tri_half q a b c); auto; [unfold turn3; lra|lra|rewrite <- turn3_rot; lra]. }
  assert (K2 : in3 q a c d -> in4 q a b c d).
  { intro I. pose proof I as (H1 & H2 & H3). split; [|split; [|auto]].
    - apply (tri_half q a c d); auto; [unfold turn3; lra|lra|rewrite turn3_rot; lra].
    - apply (tri_half q a c d); auto; [rewrite turn3_rot; lra|unfold turn3; lra|lra]. }
  destruct (tri_wind q a b c P1) as [[E1 I1]|[E1 I1]], (tri_wind q a c d P2) as [[E2 I2]|[E2 I2]]; rewrite E1, E2.
  - exfalso. destruct I1 as (_ & _ & H1), I2 as (H2 & _). destruct (hleft_total a c q) as [[_ H]|[_ H]]; auto.
  - left. auto.
  - left. auto.
  - right. split; [reflexivity|]. intros (H1 & H2 & H3 & H4). destruct (hleft_total a c q) as [[H _]|[H _]]; auto; [apply I2|apply I1]; split; auto.
Qed.
Lemma hleft_strict a b q : 0 < turn3 a b q -> hleft a b q.
Proof. left. auto. Qed.
