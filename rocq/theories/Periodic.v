(** Integrals of even, odd and 2 pi periodic functions.  Generic mathematics. *)
From Coq Require Import Reals Lra.
From Coquelicot Require Import Coquelicot.
From Verif Require Import Vec3 Calculus Deriv Integral.
Open Scope R_scope.

Lemma is_RInt_neg (f : R -> R) (a b I : R) : is_RInt f (- a) (- b) I -> is_RInt (fun x => f (- x)) a b (- I).
Proof.
  intro H. assert (G := is_RInt_comp_opp f a b I H).
  apply (is_RInt_opp (V:=R_NormedModule)) in G. eapply is_RInt_ext; [|exact G].
  intros x _. cbn. unfold opp; cbn. ring.
Qed.

Lemma even_int (f : R -> R) c I : (forall x, f (- x) = f x) -> is_RInt f 0 c I -> is_RInt f (- c) c (2 * I).
Proof.
  intros E H.
  assert (G : is_RInt f (- c) 0 I).
  { apply (is_RInt_ext (fun x => f (- x))); [intros; apply E|].
    replace I with (- - I) by ring. apply is_RInt_neg. replace (- - c) with c by ring. rewrite Ropp_0.
    apply (is_RInt_swap (V:=R_NormedModule)) in H. exact H. }
  replace (2 * I) with (plus I I) by (unfold plus; cbn; ring).
  eapply is_RInt_Chasles; eassumption.
Qed.

Lemma odd_int (f : R -> R) c I : (forall x, f (- x) = - f x) -> is_RInt f 0 c I -> is_RInt f (- c) c 0.
Proof.
  intros E H.
  assert (G : is_RInt f (- c) 0 (- I)).
  { apply (is_RInt_ext (fun x => - f (- x))); [intros; match goal with |- ?a = ?b => change (@eq R a b) end; rewrite E; ring|].
    assert (K : is_RInt (fun x => f (- x)) (- c) 0 I).
    { replace I with (- - I) by ring. apply is_RInt_neg. replace (- - c) with c by ring. rewrite Ropp_0.
      apply (is_RInt_swap (V:=R_NormedModule)) in H. exact H. }
    apply (is_RInt_opp (V:=R_NormedModule)) in K. exact K. }
  replace 0 with (- I + I) by ring.
  exact (is_RInt_Chasles (V:=R_NormedModule) f _ _ _ _ _ G H).
Qed.

(** a full period from any starting point *)
Lemma periodic_shift (f : R -> R) T c I : (forall x, f (x + T) = f x) -> (forall x, continuous f x) ->
  is_RInt f 0 T I -> is_RInt (fun x => f (x + c)) 0 T I.
Proof.
  intros P C H.
  assert (Ex : forall a b, ex_RInt f a b) by (intros; apply (ex_RInt_continuous (V:=R_CompleteNormedModule)); intros; apply C).
  destruct (Ex 0 c) as [J HJ].
  assert (HJ' : is_RInt f T (T + c) J).
  { apply (is_RInt_ext (fun x => f (x - T))); [intros x _; rewrite <- (P (x - T)); f_equal; ring|].
    apply is_RInt_shift. replace (T - T) with 0 by ring. replace (T + c - T) with c by ring. exact HJ. }
  assert (G : is_RInt f c (T + c) I).
  { replace I with (plus (opp J) (plus I J)) by (unfold plus, opp; cbn; ring).
    eapply (is_RInt_Chasles (V:=R_NormedModule)); [apply (is_RInt_swap (V:=R_NormedModule)), HJ|].
    eapply (is_RInt_Chasles (V:=R_NormedModule)); eassumption. }
  apply (is_RInt_ext (fun x => f (x - - c))); [intros x _; f_equal; ring|].
  apply is_RInt_shift. replace (0 - - c) with c by ring. replace (T - - c) with (T + c) by ring. exact G.
Qed.

Lemma comp_double (f : R -> R) c p I : is_RInt f (p - 2 * c) (p + 2 * c) I ->
  is_RInt (fun x => 2 * f (p + 2 * x)) (- c) c I.
Proof.
  intro H. apply (is_RInt_ext (fun x => 2 * f (2 * x + p))); [intros; f_equal; f_equal; ring|].
  apply (is_RInt_comp_lin f 2 p (- c) c I). replace (2 * - c + p) with (p - 2 * c) by ring. replace (2 * c + p) with (p + 2 * c) by ring. exact H.
Qed.

Lemma comp_double_inv (f : R -> R) c p I : is_RInt (fun x => f (p + 2 * x)) (- c) c I -> is_RInt f (p - 2 * c) (p + 2 * c) (2 * I).
Proof.
  intro H.
  assert (G : is_RInt (fun y => / 2 * (fun x => f (p + 2 * x)) (/ 2 * y + (- p / 2))) (p - 2 * c) (p + 2 * c) I).
  { apply (is_RInt_comp_lin (fun x => f (p + 2 * x)) (/ 2) (- p / 2)).
    replace (/ 2 * (p - 2 * c) + - p / 2) with (- c) by field. replace (/ 2 * (p + 2 * c) + - p / 2) with c by field. exact H. }
  apply (is_RInt_scal (V:=R_NormedModule) _ _ _ 2) in G. eapply is_RInt_ext; [|exact G].
  intros x _. unfold scal; cbn. unfold mult; cbn. replace (p + 2 * (/ 2 * x + - p / 2)) with x by field. field.
Qed.

(** over a full turn, a function of the cosine, by the half angle *)
Lemma turn_even (h : R -> R) I : is_RInt (fun t => h (2 * sin t ^ 2 - 1)) 0 (PI / 2) I ->
  is_RInt (fun t => h (cos t)) 0 (2 * PI) (4 * I).
Proof.
  intro H. replace 0 with (PI - 2 * (PI / 2)) by field. replace (2 * PI) with (PI + 2 * (PI / 2)) by field. replace (4 * I) with (2 * (2 * I)) by ring.
  apply comp_double_inv. apply even_int.
  - intro x. f_equal. rewrite !cos_plus. rewrite cos_PI, sin_PI. replace (2 * - x) with (- (2 * x)) by ring. rewrite cos_neg. ring.
  - eapply is_RInt_ext; [|exact H]. intros x _. cbn. f_equal. rewrite cos_plus, cos_PI, sin_PI, cos_2a_sin. ring.
Qed.

Lemma turn_odd (h : R -> R) : (forall t, continuous (fun t => h (cos t)) t) -> is_RInt (fun t => sin t * h (cos t)) 0 (2 * PI) 0.
Proof.
  intro C. replace 0 with (PI - 2 * (PI / 2)) at 1 by field. replace (2 * PI) with (PI + 2 * (PI / 2)) by field. replace 0 with (2 * 0) by ring.
  apply comp_double_inv.
  assert (Ex : ex_RInt (fun x => sin (PI + 2 * x) * h (cos (PI + 2 * x))) 0 (PI / 2)).
  { apply (ex_RInt_continuous (V:=R_CompleteNormedModule)). intros x _.
    apply (continuous_mult (K:=R_AbsRing) (fun x => sin (PI + 2 * x)) (fun x => h (cos (PI + 2 * x)))).
    - apply continuity_pt_filterlim. eapply derive_continuity. der.
    - apply (continuous_comp (fun x => PI + 2 * x) (fun t => h (cos t))); [|apply C].
      apply continuity_pt_filterlim. eapply derive_continuity. der. }
  destruct Ex as [J HJ].
  eapply odd_int; [|exact HJ].
  intro x. cbv beta. rewrite !sin_plus, !cos_plus, cos_PI, sin_PI. replace (2 * - x) with (- (2 * x)) by ring. rewrite cos_neg, sin_neg.
  ring_simplify. f_equal. f_equal. ring.
Qed.
