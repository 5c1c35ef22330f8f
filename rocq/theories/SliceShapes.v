(** * From winding numbers of assembled shapes to shapes that nest and tile a region. *)
From Verif Require Import Base Spec QLib SegmProofs PlanarGeo PlanarSum FillProofs FillCorrect ModelGraph GraphProofs ModelExtract ExtractProofs ContourResults ModelBind BindProofs Properties03 Properties04 Properties05.
From Coq Require Import Permutation.
Open Scope Z_scope.

Lemma zsum_nonneg {X} (f : X -> Z) l : (forall x, In x l -> 0 <= f x) -> 0 <= zsum f l.
Proof. induction l as [|x l IH]; intro H; [rewrite zsum_nil; lia|]. rewrite zsum_cons. pose proof (H x (or_introl eq_refl)). assert (0 <= zsum f l) by (apply IH; intros; apply H; right; auto). lia. Qed.
Lemma zsum_two {X} (f : X -> Z) l : (forall x, In x l -> 0 <= f x) -> forall a b x y, a <> b -> nth_error l a = Some x -> nth_error l b = Some y -> f x + f y <= zsum f l.
Proof.
  intro H. assert (One : forall (l : list X), (forall x, In x l -> 0 <= f x) -> forall a x, nth_error l a = Some x -> f x <= zsum f l).
  { clear. induction l as [|z l IH]; intros H [|a] x E; try discriminate; rewrite zsum_cons.
    - injection E as <-. pose proof (zsum_nonneg f l ltac:(intros; apply H; right; auto)). lia.
    - pose proof (IH ltac:(intros; apply H; right; auto) a x E). pose proof (H z (or_introl eq_refl)). lia. }
  induction l as [|z l IH]; intros [|a] [|b] x y N Ea Eb; try discriminate; try congruence; rewrite zsum_cons.
  - injection Ea as <-. pose proof (One l ltac:(intros; apply H; right; auto) b y Eb). lia.
  - injection Eb as <-. pose proof (One l ltac:(intros; apply H; right; auto) a x Ea). lia.
  - pose proof (IH ltac:(intros; apply H; right; auto) a b x y ltac:(congruence) Ea Eb). pose proof (H z (or_introl eq_refl)). lia.
Qed.
Lemma zsum_one {X} (f : X -> Z) l x : (forall x, In x l -> 0 <= f x) -> In x l -> f x <= zsum f l.
Proof.
  induction l as [|z l IH]; intros H []; rewrite zsum_cons.
  - subst z. pose proof (zsum_nonneg f l ltac:(intros; apply H; right; auto)). lia.
  - pose proof (IH ltac:(intros; apply H; right; auto) H0). pose proof (H z (or_introl eq_refl)). lia.
Qed.
Lemma zsum_some {X} (f : X -> Z) l : zsum f l <> 0 -> exists x, In x l /\ f x <> 0.
Proof.
  induction l as [|s l IH]; intro Nt; [rewrite zsum_nil in Nt; congruence|]. rewrite zsum_cons in Nt. destruct (Z.eq_dec (f s) 0) as [E|N].
  - destruct IH as (x & I & Cv); [lia|]. exists x. split; [right; auto|auto].
  - exists s. split; [left; auto|auto].
Qed.

Lemma shapes_from s (R : qpt -> bool) outers holes par out : s = 1 \/ s = -1 ->
  Forall (turns s) outers -> Forall (turns (- s)) holes -> assembled outers holes par out ->
  (forall sh q, In sh out -> contours_wind sh q = 0 \/ contours_wind sh q = s) ->
  (forall q, contours_wind (outers ++ holes) q = s * bz (R q)) -> shapes_ok s R out.
Proof.
  intros Hs To Th As Sw Tot. apply shapes_covers; [lia|]. rewrite Forall_forall in To, Th. pose proof (assembled_grouped _ _ _ _ As) as [Gh Gt].
  assert (Tot' : forall q, zsum (fun sh => s * contours_wind sh q) out = bz (R q)).
  { intro q. transitivity (s * contours_wind (concat out) q).
    - unfold contours_wind. clear. induction out as [|x l IH]; [rewrite zsum_nil; simpl; rewrite zsum_nil; lia|]. cbn [concat]. rewrite zsum_cons, zsum_app, IH. lia.
    - unfold contours_wind. rewrite (zsum_perm _ _ _ (assembled_all _ _ _ _ As)). fold (contours_wind (outers ++ holes) q). rewrite Tot. destruct Hs as [-> | ->]; lia. }
  assert (Nn : forall q sh, In sh out -> 0 <= s * contours_wind sh q) by (intros q sh I; destruct (Sw sh q I) as [-> | ->]; destruct Hs as [-> | ->]; lia).
  split; [|split].
  - apply Forall_forall. intros sh I. pose proof I as I0. assert (Ih : exists o hs, sh = o :: hs /\ In o outers).
    { assert (X : In (hd_error sh) (map Some outers)) by (rewrite <- Gh; apply in_map; auto). apply in_map_iff in X as (o & Eo & Io). destruct sh as [|o' hs]; [discriminate|]. injection Eo as <-. eauto. }
    destruct Ih as (o & hs & -> & Io). exists o, hs. assert (Hh : forall h, In h hs -> In h holes).
    { intros h Hi. apply (Permutation_in _ Gt). apply in_concat. exists hs. split; auto. apply in_map_iff. exists (o :: hs). auto. }
    assert (Pn : forall q h, In h hs -> 0 <= - s * contour_wind h q) by (intros q h Hi; destruct (proj1 (Th h (Hh h Hi)) q) as [-> | ->]; destruct Hs as [-> | ->]; lia).
    assert (Sm : forall q, 0 <= s * contour_wind o q - zsum (fun h => - s * contour_wind h q) hs).
    { intro q. pose proof (Nn q _ I) as X. unfold contours_wind in X. rewrite zsum_cons in X. rewrite zsum_mult. lia. }
    assert (Oq : forall q, s * contour_wind o q <= 1) by (intro q; destruct (proj1 (To o Io) q) as [-> | ->]; destruct Hs as [-> | ->]; lia).
    split; auto. split; auto. split; [apply Forall_forall; auto|]. split; [|split; [|intro q; apply Sw; auto]].
    + intros h q Hi N. unfold encloses in *. pose proof (Sm q). pose proof (zsum_one (fun h => - s * contour_wind h q) hs h (Pn q) Hi). cbv beta in *. pose proof (Pn q h Hi).
      intro E. rewrite E in *. destruct (proj1 (Th h (Hh h Hi)) q) as [X|X]; [auto|]. rewrite X in *. destruct Hs as [-> | ->]; lia.
    + intros a b h h' q Nab Ha Hb [N1 N2]. unfold encloses in *. pose proof (Sm q). pose proof (zsum_two (fun h => - s * contour_wind h q) hs (Pn q) a b h h' Nab Ha Hb). cbv beta in *. pose proof (Oq q).
      destruct (proj1 (Th h (Hh h (nth_error_In _ _ Ha))) q) as [X|X]; [auto|]. destruct (proj1 (Th h' (Hh h' (nth_error_In _ _ Hb))) q) as [X'|X']; [auto|]. rewrite X, X' in *. destruct Hs as [-> | ->]; lia.
  - intros k k' sh sh' q N E E' [C1 C2]. unfold nz_at in *. pose proof (Tot' q) as T. pose proof (zsum_two (fun sh => s * contours_wind sh q) out (Nn q) k k' sh sh' N E E'). cbv beta in *.
    destruct (Sw sh q (nth_error_In _ _ E)) as [X|X]; [auto|]. destruct (Sw sh' q (nth_error_In _ _ E')) as [X'|X']; [auto|]. rewrite X, X' in *. unfold bz in *. destruct (R q), Hs as [-> | ->]; lia.
  - intro q. unfold nz_at. pose proof (Tot' q) as T. split.
    + intros (sh & I & Cv). pose proof (zsum_one (fun sh => s * contours_wind sh q) out sh (Nn q) I). cbv beta in *. destruct (Sw sh q I) as [X|X]; [congruence|]. rewrite X in *. unfold bz in *. destruct (R q), Hs as [-> | ->]; auto; lia.
    + intro ER. rewrite ER in T. destruct (zsum_some (fun sh => s * contours_wind sh q) out) as (sh & I & N); [unfold bz in T; lia|]. exists sh. split; auto. intro X. cbv beta in N. rewrite X in N. lia.
Qed.
