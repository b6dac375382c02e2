(** Complex exponential, principal square root, complex-valued functions of a
    real variable and complex vector fields.  Generic mathematics on top of
    Coquelicot's [C]: nothing here models geoana code. *)
From Coq Require Import Reals Lra.
From Coquelicot Require Import Coquelicot.
From Verif Require Import Vec3 Calculus.
Open Scope R_scope.

Notation Re := (@fst R R).
Notation Im := (@snd R R).

(** natural powers *)
Fixpoint cpow (z : C) (n : nat) : C :=
  match n with O => RtoC 1 | S m => (z * cpow z m)%C end.
Notation "x ^ n" := (cpow x n) : C_scope.

(** e^z = e^(re z) (cos (im z) + i sin (im z)) *)
Definition cexp (z : C) : C := (exp (Re z) * cos (Im z), exp (Re z) * sin (Im z)).

(** the principal square root: non-negative real part, cut along the negative
    real axis (which is mapped to the positive imaginary axis) *)
Definition csqrt (z : C) : C :=
  (sqrt ((Cmod z + Re z) / 2),
   (if Rle_dec 0 (Im z) then 1 else -1) * sqrt ((Cmod z - Re z) / 2)).

(** derivative of a complex-valued function of a real variable *)
Definition is_cderive (f : R -> C) (x : R) (d : C) : Prop :=
  is_derive (fun t => Re (f t)) x (Re d) /\ is_derive (fun t => Im (f t)) x (Im d).

(** complex three-vectors *)
Record cvec : Type := CV { cvx : C; cvy : C; cvz : C }.

Definition re_vec (v : cvec) : vec3 := V3 (Re (cvx v)) (Re (cvy v)) (Re (cvz v)).
Definition im_vec (v : cvec) : vec3 := V3 (Im (cvx v)) (Im (cvy v)) (Im (cvz v)).
(** a complex number times a real vector *)
Definition cvof (c : C) (v : vec3) : cvec :=
  CV (c * RtoC (vx v))%C (c * RtoC (vy v))%C (c * RtoC (vz v))%C.
Definition cvadd (a b : cvec) : cvec :=
  CV (cvx a + cvx b)%C (cvy a + cvy b)%C (cvz a + cvz b)%C.
Definition cvsub (a b : cvec) : cvec :=
  CV (cvx a - cvx b)%C (cvy a - cvy b)%C (cvz a - cvz b)%C.
Definition cvscal (c : C) (v : cvec) : cvec := CV (c * cvx v)%C (c * cvy v)%C (c * cvz v)%C.
Definition cvzero : cvec := CV (RtoC 0) (RtoC 0) (RtoC 0).
(** bilinear product with a real vector *)
Definition cvdot (v : cvec) (n : vec3) : C :=
  (cvx v * RtoC (vx n) + cvy v * RtoC (vy n) + cvz v * RtoC (vz n))%C.

(** curl and divergence of a complex vector field *)
Definition is_ccurl (F : vec3 -> cvec) (p : vec3) (c : cvec) : Prop :=
  is_curl (fun q => re_vec (F q)) p (re_vec c) /\
  is_curl (fun q => im_vec (F q)) p (im_vec c).
Definition is_cdiv (F : vec3 -> cvec) (p : vec3) (d : C) : Prop :=
  is_div (fun q => re_vec (F q)) p (Re d) /\
  is_div (fun q => im_vec (F q)) p (Im d).

Lemma cvec_eq (a b : cvec) : cvx a = cvx b -> cvy a = cvy b -> cvz a = cvz b -> a = b.
Proof. destruct a, b; simpl; intros; subst; reflexivity. Qed.

Lemma C_eq (a b : C) : Re a = Re b -> Im a = Im b -> a = b.
Proof. destruct a, b; simpl; intros; subst; reflexivity. Qed.

Lemma parts_eq (a b : cvec) : re_vec a = re_vec b -> im_vec a = im_vec b -> a = b.
Proof.
  destruct a as [[a1 a2] [a3 a4] [a5 a6]], b as [[b1 b2] [b3 b4] [b5 b6]].
  unfold re_vec, im_vec; simpl. intros H G. injection H; injection G; intros; subst; reflexivity.
Qed.

Lemma is_ccurl_unique F p c d : is_ccurl F p c -> is_ccurl F p d -> c = d.
Proof.
  intros [A B] [A' B']. apply parts_eq.
  - exact (is_curl_unique _ _ _ _ A A').
  - exact (is_curl_unique _ _ _ _ B B').
Qed.

Lemma is_cdiv_unique F p c d : is_cdiv F p c -> is_cdiv F p d -> c = d.
Proof.
  intros [A B] [A' B']. apply C_eq.
  - exact (is_div_unique _ _ _ _ A A').
  - exact (is_div_unique _ _ _ _ B B').
Qed.

Ltac ceq := apply C_eq; simpl.

Lemma cexp_0 : cexp (RtoC 0) = RtoC 1.
Proof. unfold cexp; ceq; rewrite exp_0, ?cos_0, ?sin_0; ring. Qed.

Lemma cexp_plus a b : cexp (a + b)%C = (cexp a * cexp b)%C.
Proof. unfold cexp; ceq; rewrite exp_plus, ?cos_plus, ?sin_plus; ring. Qed.

Lemma Cmod_cexp z : Cmod (cexp z) = exp (Re z).
Proof.
  unfold Cmod, cexp; simpl.
  replace (_ + _) with (exp (Re z) * exp (Re z)).
  - apply sqrt_square. left; apply exp_pos.
  - pose proof (sin2_cos2 (Im z)) as H. unfold Rsqr in H.
    replace (exp (Re z) * exp (Re z)) with (exp (Re z) * exp (Re z) * (sin (Im z) * sin (Im z) + cos (Im z) * cos (Im z)))
      by (rewrite H; ring). ring.
Qed.

Lemma cexp_neq_0 z : cexp z <> RtoC 0.
Proof.
  intro H. pose proof (Cmod_cexp z) as G. rewrite H, Cmod_0 in G.
  pose proof (exp_pos (Re z)). lra.
Qed.

Lemma Cmod_sqr z : Cmod z * Cmod z = Re z * Re z + Im z * Im z.
Proof.
  unfold Cmod. rewrite sqrt_sqrt; [ring|]. simpl. nra.
Qed.

Lemma abs_re_le z : Rabs (Re z) <= Cmod z.
Proof.
  pose proof (Cmod_sqr z). pose proof (Cmod_ge_0 z).
  apply Rabs_le. split; nra.
Qed.

Lemma Cmod_re_bounds z : 0 <= Cmod z + Re z /\ 0 <= Cmod z - Re z.
Proof.
  pose proof (Cmod_ge_0 z). pose proof (Cmod_sqr z).
  split; nra.
Qed.

(** the square root is a square root, with non-negative real part *)
Lemma csqrt_sq z : (csqrt z * csqrt z)%C = z.
Proof.
  pose proof (Cmod_re_bounds z) as [P Q]. pose proof (Cmod_sqr z) as S.
  unfold csqrt.
  set (a := sqrt ((Cmod z + Re z) / 2)). set (b := sqrt ((Cmod z - Re z) / 2)).
  assert (A : a * a = (Cmod z + Re z) / 2) by (apply sqrt_sqrt; lra).
  assert (B : b * b = (Cmod z - Re z) / 2) by (apply sqrt_sqrt; lra).
  assert (AB : 2 * (a * b) = Rabs (Im z)).
  { unfold a, b. rewrite <- sqrt_mult by lra.
    replace ((Cmod z + Re z) / 2 * ((Cmod z - Re z) / 2)) with ((Im z / 2) * (Im z / 2)) by nra.
    fold (Rsqr (Im z / 2)). rewrite sqrt_Rsqr_abs.
    unfold Rdiv. rewrite Rabs_mult, (Rabs_right (/ 2)) by lra. lra. }
  destruct (Rle_dec 0 (Im z)) as [L|L]; ceq.
  - lra.
  - rewrite Rabs_right in AB by lra. lra.
  - lra.
  - rewrite Rabs_left in AB by lra. lra.
Qed.

Lemma csqrt_re_nonneg z : 0 <= Re (csqrt z).
Proof. apply sqrt_pos. Qed.

Lemma csqrt_0 : csqrt (RtoC 0) = RtoC 0.
Proof.
  unfold csqrt. rewrite Cmod_0. ceq.
  - replace ((0 + 0) / 2) with 0 by lra. apply sqrt_0.
  - replace ((0 - 0) / 2) with 0 by lra. rewrite sqrt_0. ring.
Qed.

(** below the real axis both parts are strict *)
Lemma csqrt_lower z : Im z < 0 -> 0 < Re (csqrt z) /\ Im (csqrt z) < 0.
Proof.
  intro H. pose proof (Cmod_re_bounds z) as [P Q]. pose proof (Cmod_sqr z) as S.
  assert (P' : 0 < Cmod z + Re z) by nra.
  assert (Q' : 0 < Cmod z - Re z) by nra.
  unfold csqrt; simpl. split.
  - apply sqrt_lt_R0. lra.
  - destruct (Rle_dec 0 (Im z)); [lra|].
    assert (0 < sqrt ((Cmod z - Re z) / 2)) by (apply sqrt_lt_R0; lra). lra.
Qed.

(** the only square root with positive real part *)
Lemma csqrt_unique z w : 0 < Re w -> (w * w)%C = z -> w = csqrt z.
Proof.
  intros H E. pose proof (csqrt_sq z) as S. pose proof (csqrt_re_nonneg z) as N.
  set (s := csqrt z) in *. clearbody s. rewrite <- E in S. clear E.
  destruct s as [a b], w as [c d]. unfold Cmult in S; simpl in *.
  injection S; intros S2 S1.
  assert (X : a * b = c * d) by lra. assert (Y : a * a - b * b = c * c - d * d) by lra.
  assert (Z : a * a + b * b = c * c + d * d).
  { assert ((a*a + b*b) * (a*a+b*b) = (c*c+d*d)*(c*c+d*d)).
    { replace ((a*a+b*b)*(a*a+b*b)) with ((a*a-b*b)*(a*a-b*b) + 4*(a*b)*(a*b)) by ring.
      rewrite X, Y. ring. }
    assert ((a*a+b*b - (c*c+d*d)) * (a*a+b*b+(c*c+d*d)) = 0) by lra.
    apply Rmult_integral in H1. destruct H1; nra. }
  assert (a = c) by nra. subst a. assert (b = d) by nra. subst; reflexivity.
Qed.

(** ** derivatives *)
Lemma is_cderive_unique f x d e : is_cderive f x d -> is_cderive f x e -> d = e.
Proof.
  intros [A B] [A' B']. apply C_eq.
  - rewrite <- (is_derive_unique _ _ _ A). apply is_derive_unique, A'.
  - rewrite <- (is_derive_unique _ _ _ B). apply is_derive_unique, B'.
Qed.

Lemma is_cderive_eq f x d e : is_cderive f x d -> d = e -> is_cderive f x e.
Proof. intros H E; rewrite <- E; exact H. Qed.

Lemma is_cderive_ext f g x d : (forall t, f t = g t) -> is_cderive f x d -> is_cderive g x d.
Proof.
  intros E [A B]. split.
  - apply (is_derive_ext (fun t => Re (f t))); [intro; rewrite E; reflexivity|exact A].
  - apply (is_derive_ext (fun t => Im (f t))); [intro; rewrite E; reflexivity|exact B].
Qed.

Lemma is_cderive_ext_loc f g x d :
  locally x (fun t => f t = g t) -> is_cderive f x d -> is_cderive g x d.
Proof.
  intros E [A B]. split.
  - apply (is_derive_ext_loc (fun t => Re (f t))); [|exact A].
    eapply filter_imp; [|exact E]. intros t H; simpl; rewrite H; reflexivity.
  - apply (is_derive_ext_loc (fun t => Im (f t))); [|exact B].
    eapply filter_imp; [|exact E]. intros t H; simpl; rewrite H; reflexivity.
Qed.

Lemma CD_const (c : C) x : is_cderive (fun _ => c) x (RtoC 0).
Proof. split; apply @is_derive_const. Qed.

Lemma CD_real (f : R -> R) x (d : R) : is_derive f x d -> is_cderive (fun t => RtoC (f t)) x (RtoC d).
Proof. intro H; split; simpl; [exact H|apply @is_derive_const]. Qed.

Lemma CD_id x : is_cderive (fun t => RtoC t) x (RtoC 1).
Proof. apply (CD_real (fun t => t)). apply @is_derive_id. Qed.

Lemma CD_plus f g x a b : is_cderive f x a -> is_cderive g x b ->
  is_cderive (fun t => f t + g t)%C x (a + b)%C.
Proof.
  intros [A B] [A' B']. split; simpl.
  - apply (is_derive_plus (fun t => Re (f t)) (fun t => Re (g t)) x _ _ A A').
  - apply (is_derive_plus (fun t => Im (f t)) (fun t => Im (g t)) x _ _ B B').
Qed.

Lemma CD_opp f x a : is_cderive f x a -> is_cderive (fun t => - f t)%C x (- a)%C.
Proof.
  intros [A B]. split; simpl.
  - apply (is_derive_opp (fun t => Re (f t)) x _ A).
  - apply (is_derive_opp (fun t => Im (f t)) x _ B).
Qed.

Lemma CD_minus f g x a b : is_cderive f x a -> is_cderive g x b ->
  is_cderive (fun t => f t - g t)%C x (a - b)%C.
Proof. intros A B. apply CD_plus; [exact A|apply CD_opp, B]. Qed.

Lemma CD_mult f g x a b : is_cderive f x a -> is_cderive g x b ->
  is_cderive (fun t => f t * g t)%C x (a * g x + f x * b)%C.
Proof.
  intros [A B] [A' B']. split; simpl.
  - eapply is_derive_eq.
    + apply @is_derive_minus.
      * apply (is_derive_mult (fun t => Re (f t)) (fun t => Re (g t)) x _ _ A A'). intros; apply Rmult_comm.
      * apply (is_derive_mult (fun t => Im (f t)) (fun t => Im (g t)) x _ _ B B'). intros; apply Rmult_comm.
    + unfold minus, plus, opp, mult; simpl. ring.
  - eapply is_derive_eq.
    + apply @is_derive_plus.
      * apply (is_derive_mult (fun t => Re (f t)) (fun t => Im (g t)) x _ _ A B'). intros; apply Rmult_comm.
      * apply (is_derive_mult (fun t => Im (f t)) (fun t => Re (g t)) x _ _ B A'). intros; apply Rmult_comm.
    + unfold minus, plus, opp, mult; simpl. ring.
Qed.

Lemma CD_scal c f x a : is_cderive f x a -> is_cderive (fun t => c * f t)%C x (c * a)%C.
Proof.
  intro A. eapply is_cderive_eq; [apply CD_mult; [apply CD_const|exact A]|]. cbv beta. ring.
Qed.

Lemma CD_exp f x a : is_cderive f x a -> is_cderive (fun t => cexp (f t)) x (a * cexp (f x))%C.
Proof.
  intros [A B]. unfold cexp. split; simpl.
  - eapply is_derive_eq.
    + apply (is_derive_mult (fun t => exp (Re (f t))) (fun t => cos (Im (f t))) x).
      * apply (is_derive_comp exp (fun t => Re (f t)) x); [apply is_derive_exp|exact A].
      * apply (is_derive_comp cos (fun t => Im (f t)) x); [apply is_derive_cos|exact B].
      * intros; apply Rmult_comm.
    + unfold scal, plus, opp, mult; simpl. unfold mult; simpl. ring.
  - eapply is_derive_eq.
    + apply (is_derive_mult (fun t => exp (Re (f t))) (fun t => sin (Im (f t))) x).
      * apply (is_derive_comp exp (fun t => Re (f t)) x); [apply is_derive_exp|exact A].
      * apply (is_derive_comp sin (fun t => Im (f t)) x); [apply is_derive_sin|exact B].
      * intros; apply Rmult_comm.
    + unfold scal, plus, opp, mult; simpl. unfold mult; simpl. ring.
Qed.

Lemma CD_inv f x a : is_cderive f x a -> f x <> RtoC 0 ->
  is_cderive (fun t => / f t)%C x (- a / (f x * f x))%C.
Proof.
  intros [A B] N.
  assert (M : Re (f x) * Re (f x) + Im (f x) * Im (f x) <> 0).
  { intro E. apply N. apply C_eq; simpl; nra. }
  assert (DN : is_derive (fun t => Re (f t) * Re (f t) + Im (f t) * Im (f t)) x
     (2 * Re (f x) * Re a + 2 * Im (f x) * Im a)).
  { eapply is_derive_eq.
    - apply @is_derive_plus.
      + apply (is_derive_mult (fun t => Re (f t)) (fun t => Re (f t)) x _ _ A A). intros; apply Rmult_comm.
      + apply (is_derive_mult (fun t => Im (f t)) (fun t => Im (f t)) x _ _ B B). intros; apply Rmult_comm.
    - unfold plus, mult; simpl. ring. }
  unfold Cinv, Cdiv. split; simpl.
  - apply (is_derive_ext (fun t => Re (f t) / (Re (f t) * Re (f t) + Im (f t) * Im (f t)))).
    { intro t; rewrite ?Rmult_1_r. reflexivity. }
    eapply is_derive_eq.
    + apply (is_derive_div (fun t => Re (f t)) _ x _ _ A DN M).
    + simpl. field_simplify_eq; [ring|]. split; [|].
      * intro E. apply M. nra.
      * intro E. apply M. nra.
  - apply (is_derive_ext (fun t => - Im (f t) / (Re (f t) * Re (f t) + Im (f t) * Im (f t)))).
    { intro t; rewrite ?Rmult_1_r. reflexivity. }
    eapply is_derive_eq.
    + exact (is_derive_div (fun t => - Im (f t)) _ x (- Im a) _
               (is_derive_opp (fun t => Im (f t)) x _ B) DN M).
    + simpl. field_simplify_eq; [ring|]. split; [|].
      * intro E. apply M. nra.
      * intro E. apply M. nra.
Qed.
