(** * A polygon inside another one has the smaller area. *)
From Coq Require Import Lqa.
From Verif Require Import Base Spec QLib ModelExtract AreaWind.
Open Scope Q_scope.

Definition scaled (d : Z) (l : list (Z * Q)) : list (Z * Q) := map (fun e => ((d * fst e)%Z, snd e)) l.
Lemma scaled_level d l y : level (scaled d l) y = (d * level l y)%Z.
Proof. unfold scaled, level. rewrite zsum_map, <- zsum_mult. apply zsum_ext. intros e _. cbn [fst snd]. destruct (Qltb _ _); lia. Qed.
Lemma scaled_total d l : zsum fst (scaled d l) = (d * zsum fst l)%Z.
Proof. unfold scaled. rewrite zsum_map, <- zsum_mult. reflexivity. Qed.
Lemma scaled_moment d l : moment (scaled d l) == inject_Z d * moment l.
Proof. unfold scaled, moment. rewrite qsum_map, <- qsum_scale. apply qsum_ext. intros e _. cbn [fst snd]. rewrite inject_Z_mult. ring. Qed.
Lemma level_app l m y : level (l ++ m) y = (level l y + level m y)%Z.
Proof. apply zsum_app. Qed.
Lemma moment_app l m : moment (l ++ m) == moment l + moment m.
Proof. apply qsum_app. Qed.
Lemma F_mono d d' c c' x : (forall q, (d * contour_wind c q <= d' * contour_wind c' q)%Z) -> inject_Z d * F c x <= inject_Z d' * F c' x.
Proof.
  intro H. destruct (abel_sign (scaled d' (column x c') ++ scaled (- d) (column x c))) as [H1 _].
  - rewrite zsum_app, !scaled_total, !column_total. lia.
  - intro y. rewrite level_app, !scaled_level, !column_level. specialize (H (x, y)). lia.
  - rewrite moment_app, !scaled_moment, inject_Z_opp in H1. unfold F. lra.
Qed.
Lemma qsum_mono {A} (f g : A -> Q) l : (forall x, f x <= g x) -> qsum f l <= qsum g l.
Proof. intro H. induction l as [|x l IH]; cbn [qsum]; [lra|]. specialize (H x). lra. Qed.
Theorem area_mono d d' c c' : (forall q, (d * contour_wind c q <= d' * contour_wind c' q)%Z) -> (d * area2 c <= d' * area2 c')%Z.
Proof.
  intro H. destruct (x_range (c ++ c')) as (lo & k & R).
  assert (E : inject_Z (area2 c) == 2 * qsum (fun n => F c (mid n)) (slabs lo k)) by (apply area_slabs; intros p I; apply R, in_or_app; auto).
  assert (E' : inject_Z (area2 c') == 2 * qsum (fun n => F c' (mid n)) (slabs lo k)) by (apply area_slabs; intros p I; apply R, in_or_app; auto).
  rewrite Zle_Qle, !inject_Z_mult, E, E'.
  assert (M : qsum (fun n => inject_Z d * F c (mid n)) (slabs lo k) <= qsum (fun n => inject_Z d' * F c' (mid n)) (slabs lo k)) by (apply qsum_mono; intro n; apply F_mono; auto).
  rewrite !qsum_scale in M. lra.
Qed.
