(** Specification vocabulary: the iterated (Riemann) triple integral over a box.
    This file knows nothing about the geoana model. *)
From Coq Require Import Reals Lra.
From Coquelicot Require Import Coquelicot.
Open Scope R_scope.

(** [I] is the integral of [f] over [a1,a2] x [b1,b2] x [c1,c2], integrated in z, then y, then x *)
Definition is_triple_integral (f : R -> R -> R -> R) (a1 a2 b1 b2 c1 c2 I : R) : Prop :=
  exists (g1 : R -> R -> R) (g2 : R -> R),
    (forall x y, a1 <= x <= a2 -> b1 <= y <= b2 -> is_RInt (fun z => f x y z) c1 c2 (g1 x y)) /\
    (forall x, a1 <= x <= a2 -> is_RInt (fun y => g1 x y) b1 b2 (g2 x)) /\
    is_RInt (fun x => g2 x) a1 a2 I.

Lemma is_RInt_ext_in (f g : R -> R) a b I : a <= b -> (forall x, a <= x <= b -> f x = g x) -> is_RInt f a b I -> is_RInt g a b I.
Proof.
  intros Hab H. apply is_RInt_ext. intros x Hx. rewrite Rmin_left, Rmax_right in Hx by lra. apply H. lra.
Qed.

Lemma FTC (f df : R -> R) a b : a <= b ->
  (forall x, a <= x <= b -> is_derive f x (df x)) -> (forall x, a <= x <= b -> continuous df x) -> is_RInt df a b (f b - f a).
Proof.
  intros Hab D C. apply (is_RInt_derive f df); intros x Hx; rewrite Rmin_left, Rmax_right in Hx by lra; auto.
Qed.

Lemma is_RInt_shift (f : R -> R) p a b I : is_RInt f (a - p) (b - p) I -> is_RInt (fun x => f (x - p)) a b I.
Proof.
  intro H. replace (a - p) with (1 * a + - p) in H by ring. replace (b - p) with (1 * b + - p) in H by ring.
  pose proof (is_RInt_comp_lin f 1 (- p) a b I H) as K.
  eapply is_RInt_ext; [|exact K]. intros x _. cbn beta. change (1 * f (1 * x + - p) = f (x - p)). replace (1 * x + - p) with (x - p) by ring. ring.
Qed.

Lemma is_triple_unique f a1 a2 b1 b2 c1 c2 I J : a1 <= a2 -> b1 <= b2 -> c1 <= c2 ->
  is_triple_integral f a1 a2 b1 b2 c1 c2 I -> is_triple_integral f a1 a2 b1 b2 c1 c2 J -> I = J.
Proof.
  intros Ha Hb Hc [g1 [g2 [A [B C]]]] [h1 [h2 [A' [B' C']]]].
  assert (E1 : forall x y, a1 <= x <= a2 -> b1 <= y <= b2 -> g1 x y = h1 x y).
  { intros x y Hx Hy. rewrite <- (is_RInt_unique _ _ _ _ (A x y Hx Hy)). apply is_RInt_unique, A'; assumption. }
  assert (E2 : forall x, a1 <= x <= a2 -> g2 x = h2 x).
  { intros x Hx. rewrite <- (is_RInt_unique _ _ _ _ (B x Hx)). apply is_RInt_unique.
    eapply is_RInt_ext_in; [exact Hb| |apply B', Hx]. intros y Hy; cbn beta. symmetry; apply E1; assumption. }
  rewrite <- (is_RInt_unique _ _ _ _ C). apply is_RInt_unique.
  eapply is_RInt_ext_in; [exact Ha| |exact C']. intros x Hx; cbn beta. symmetry; apply E2; assumption.
Qed.

Lemma is_triple_shift f p q r a1 a2 b1 b2 c1 c2 I :
  is_triple_integral f (a1 - p) (a2 - p) (b1 - q) (b2 - q) (c1 - r) (c2 - r) I ->
  is_triple_integral (fun x y z => f (x - p) (y - q) (z - r)) a1 a2 b1 b2 c1 c2 I.
Proof.
  intros [g1 [g2 [A [B C]]]]. exists (fun x y => g1 (x - p) (y - q)), (fun x => g2 (x - p)). split; [|split].
  - intros x y Hx Hy. apply (is_RInt_shift (fun z => f (x - p) (y - q) z)). apply A; lra.
  - intros x Hx. apply (is_RInt_shift (fun y => g1 (x - p) y)). apply B; lra.
  - apply (is_RInt_shift g2). exact C.
Qed.

(** iterated fundamental theorem; the derivatives may be off by terms that do not
    depend on all the variables still to be integrated, since these cancel *)
Lemma triple_FTC_gen (f fx fxy fxyz : R -> R -> R -> R) (e1 e2 e3 : R -> R -> R) a1 a2 b1 b2 c1 c2 :
  a1 <= a2 -> b1 <= b2 -> c1 <= c2 ->
  (forall x y z, a1 <= x <= a2 -> b1 <= y <= b2 -> c1 <= z <= c2 ->
     is_derive (fun t => f t y z) x (fx x y z + e1 x y + e2 x z) /\ is_derive (fun t => fx x t z) y (fxy x y z + e3 x y) /\
     is_derive (fun t => fxy x y t) z (fxyz x y z) /\
     continuous (fun t => fx t y z) x /\ continuous (fun t => fxy x t z) y /\ continuous (fun t => fxyz x y t) z) ->
  is_triple_integral fxyz a1 a2 b1 b2 c1 c2
    (f a2 b2 c2 - f a2 b2 c1 - f a2 b1 c2 + f a2 b1 c1 - f a1 b2 c2 + f a1 b2 c1 + f a1 b1 c2 - f a1 b1 c1).
Proof.
  intros Ha Hb Hc H.
  exists (fun x y => fxy x y c2 - fxy x y c1), (fun x => (fx x b2 c2 - fx x b2 c1) - (fx x b1 c2 - fx x b1 c1)).
  split; [|split].
  - intros x y Hx Hy. apply (FTC (fun z => fxy x y z) (fun z => fxyz x y z)); [exact Hc| |]; intros z Hz; destruct (H x y z Hx Hy Hz) as (A&B&C&D&E&G); assumption.
  - intros x Hx. apply (FTC (fun y => fx x y c2 - fx x y c1) (fun y => fxy x y c2 - fxy x y c1)); [exact Hb| |]; intros y Hy.
    + destruct (H x y c2 Hx Hy ltac:(lra)) as (A&B&C&D&E&G). destruct (H x y c1 Hx Hy ltac:(lra)) as (A'&B'&C'&D'&E'&G').
      replace (fxy x y c2 - fxy x y c1) with ((fxy x y c2 + e3 x y) - (fxy x y c1 + e3 x y)) by ring.
      apply (is_derive_minus (fun t => fx x t c2) (fun t => fx x t c1)); assumption.
    + destruct (H x y c2 Hx Hy ltac:(lra)) as (A&B&C&D&E&G). destruct (H x y c1 Hx Hy ltac:(lra)) as (A'&B'&C'&D'&E'&G').
      apply (continuous_minus (fun t => fxy x t c2) (fun t => fxy x t c1)); assumption.
  - replace (f a2 b2 c2 - f a2 b2 c1 - f a2 b1 c2 + f a2 b1 c1 - f a1 b2 c2 + f a1 b2 c1 + f a1 b1 c2 - f a1 b1 c1)
      with (((f a2 b2 c2 - f a2 b2 c1) - (f a2 b1 c2 - f a2 b1 c1)) - ((f a1 b2 c2 - f a1 b2 c1) - (f a1 b1 c2 - f a1 b1 c1))) by ring.
    apply (FTC (fun x => (f x b2 c2 - f x b2 c1) - (f x b1 c2 - f x b1 c1))
               (fun x => (fx x b2 c2 - fx x b2 c1) - (fx x b1 c2 - fx x b1 c1))); [exact Ha| |]; intros x Hx.
    + destruct (H x b2 c2 Hx ltac:(lra) ltac:(lra)) as (A&_). destruct (H x b2 c1 Hx ltac:(lra) ltac:(lra)) as (B&_).
      destruct (H x b1 c2 Hx ltac:(lra) ltac:(lra)) as (C&_). destruct (H x b1 c1 Hx ltac:(lra) ltac:(lra)) as (D&_).
      replace (fx x b2 c2 - fx x b2 c1 - (fx x b1 c2 - fx x b1 c1))
        with ((fx x b2 c2 + e1 x b2 + e2 x c2) - (fx x b2 c1 + e1 x b2 + e2 x c1) - ((fx x b1 c2 + e1 x b1 + e2 x c2) - (fx x b1 c1 + e1 x b1 + e2 x c1))) by ring.
      apply (is_derive_minus (fun x => f x b2 c2 - f x b2 c1) (fun x => f x b1 c2 - f x b1 c1));
        [apply (is_derive_minus (fun x => f x b2 c2) (fun x => f x b2 c1))|apply (is_derive_minus (fun x => f x b1 c2) (fun x => f x b1 c1))]; assumption.
    + destruct (H x b2 c2 Hx ltac:(lra) ltac:(lra)) as (_&_&_&A&_). destruct (H x b2 c1 Hx ltac:(lra) ltac:(lra)) as (_&_&_&B&_).
      destruct (H x b1 c2 Hx ltac:(lra) ltac:(lra)) as (_&_&_&C&_). destruct (H x b1 c1 Hx ltac:(lra) ltac:(lra)) as (_&_&_&D&_).
      apply (continuous_minus (fun x => fx x b2 c2 - fx x b2 c1) (fun x => fx x b1 c2 - fx x b1 c1));
        [apply (continuous_minus (fun x => fx x b2 c2) (fun x => fx x b2 c1))|apply (continuous_minus (fun x => fx x b1 c2) (fun x => fx x b1 c1))]; assumption.
Qed.

Lemma triple_FTC (f fx fxy fxyz : R -> R -> R -> R) a1 a2 b1 b2 c1 c2 :
  a1 <= a2 -> b1 <= b2 -> c1 <= c2 ->
  (forall x y z, a1 <= x <= a2 -> b1 <= y <= b2 -> c1 <= z <= c2 ->
     is_derive (fun t => f t y z) x (fx x y z) /\ is_derive (fun t => fx x t z) y (fxy x y z) /\
     is_derive (fun t => fxy x y t) z (fxyz x y z) /\
     continuous (fun t => fx t y z) x /\ continuous (fun t => fxy x t z) y /\ continuous (fun t => fxyz x y t) z) ->
  is_triple_integral fxyz a1 a2 b1 b2 c1 c2
    (f a2 b2 c2 - f a2 b2 c1 - f a2 b1 c2 + f a2 b1 c1 - f a1 b2 c2 + f a1 b2 c1 + f a1 b1 c2 - f a1 b1 c1).
Proof.
  intros Ha Hb Hc H. apply (triple_FTC_gen f fx fxy fxyz (fun _ _ => 0) (fun _ _ => 0) (fun _ _ => 0)); try assumption.
  intros x y z Hx Hy Hz. rewrite !Rplus_0_r. apply H; assumption.
Qed.
