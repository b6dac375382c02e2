(** A library that meets the hypotheses of C140: exact arithmetic, with K_n set to zero below half the smallest float. *)
From Coq Require Import Reals Lra Psatz List.
From Coquelicot Require Import Coquelicot.
From Verif Require Import Vec3 Model_Spatial Cplx Numpy Model_FDEM Spec_Fourier Spec_HalfSpace Spec_Mirror Proof_Fourier Proof_HalfSpace Proof_HalfSpace2 Model_Special Spec_Special.
Open Scope R_scope.

Definition tiny_to_zero (v : R) : flt := if Rlt_dec (Rabs v) (/ 2 ^ 1075) then Fin 0 else Fin v.
Definition exact_kv (n : nat) (z : fc) : fc :=
  match z with
  | (Fin p, Fin q) =>
      let f := fun t => (cexp (- ((p, q) * RtoC (cosh t))) * RtoC (cosh (INR n * t)))%C in
      (tiny_to_zero (RInt_gen (fun t => Re (f t)) (at_right 0) inf), tiny_to_zero (RInt_gen (fun t => Im (f t)) (at_right 0) inf))
  | _ => (NaN, NaN)
  end.
Definition onc (f : C -> C) (z : fc) : fc := match z with (Fin p, Fin q) => (Fin (Re (f (p, q))), Fin (Im (f (p, q)))) | _ => (NaN, NaN) end.
Definition onr (f : R -> R) (a : flt) : flt := match a with Fin x => Fin (f x) | _ => NaN end.
Definition onr2 (f : R -> R -> R) (a b : flt) : flt := match a, b with Fin x, Fin y => Fin (f x y) | _, _ => NaN end.
Definition exact_lib (mu_0 : R) (iv : nat -> fc -> fc) : lib :=
  Lib Fin PI mu_0 (fun m => (Fin (Re (fd_sigma_hat m)), Fin (Im (fd_sigma_hat m)))) (onr2 (fun x y => sqrt (x ^ 2 + y ^ 2))) (fun a n => onr (fun x => x ^ n) a)
    (onr2 atan2) (onr cos) (onr sin) (onc csqrt) (onc cexp) (fun z n => onc (fun z => cpow z n) z)
    (fun a b => match b with (Fin p, Fin q) => onc (fun z => (z / (p, q))%C) a | _ => (NaN, NaN) end) iv exact_kv.

Lemma exact_underflows : kv_underflows exact_kv.
Proof.
  intros n z K [H1 H2] A B. unfold exact_kv. destruct z as [p q]. cbn [Re Im fst snd] in *.
  pose proof (is_RInt_gen_unique (V:=R_CompleteNormedModule) _ _ H1) as E1. pose proof (is_RInt_gen_unique (V:=R_CompleteNormedModule) _ _ H2) as E2.
  unfold tiny_to_zero. split; cbn [fst snd]; left.
  - match goal with |- (if Rlt_dec (Rabs ?v) _ then _ else _) = _ => replace v with (Re K) by (symmetry; exact E1) end. destruct (Rlt_dec _ _); [reflexivity|contradiction].
  - match goal with |- (if Rlt_dec (Rabs ?v) _ then _ else _) = _ => replace v with (Im K) by (symmetry; exact E2) end. destruct (Rlt_dec _ _); [reflexivity|contradiction].
Qed.
Definition fcC (z : C) : fc := (Fin (Re z), Fin (Im z)).
Lemma exact_mul mu_0 iv a b : cmul (exact_lib mu_0 iv) (fcC a) (fcC b) = fcC (a * b)%C.
Proof. destruct a, b. unfold cmul, fcC. cbn. f_equal; f_equal; ring. Qed.
Lemma exact_on f z : onc f (fcC z) = fcC (f z). Proof. destruct z. reflexivity. Qed.
Lemma exact_k mu_0 iv s : s_k (exact_lib mu_0 iv) s = fcC (mh_k mu_0 s).
Proof.
  unfold s_k, mh_k. cbv zeta. cbn [fmul rd exact_lib l_pi l_mu0 l_sigma_hat l_csqrt]. fold (fcC (fd_sigma_hat (mh_med s))).
  change (cj (-1)) with (fcC (0, -1)). change (cre (Fin (2 * PI * fd_freq (mh_med s)))) with (fcC (RtoC (2 * PI * fd_freq (mh_med s)))). change (cn mu_0) with (fcC (RtoC mu_0)).
  rewrite !exact_mul, exact_on. do 5 f_equal. apply C_eq; cbn; ring.
Qed.
Lemma exact_alpha mu_0 iv s c n r : 0 < r -> c * c + n * n = 1 ->
  s_alpha (exact_lib mu_0 iv) s (at_distance (mh_loc s) c n r) = fcC (Ci * mh_k mu_0 s * RtoC (r / 2))%C.
Proof.
  intros P U. assert (Er : s_r (exact_lib mu_0 iv) s (at_distance (mh_loc s) c n r) = Fin r).
  { unfold s_r, s_x, s_y. cbn -[sqrt pow]. f_equal. replace ((vx (mh_loc s) + r * c + - vx (mh_loc s)) ^ 2 + (vy (mh_loc s) + r * n + - vy (mh_loc s)) ^ 2) with (r ^ 2 * (c * c + n * n)) by ring.
    rewrite U, Rmult_1_r. apply sqrt_pow2. lra. }
  unfold s_alpha. rewrite Er, exact_k. change (cj 1) with (fcC Ci). change (cre (Fin r)) with (fcC (RtoC r)). rewrite !exact_mul.
  change (l_cdiv (exact_lib mu_0 iv) (fcC (Ci * mh_k mu_0 s * RtoC r)%C) (cn 2)) with (onc (fun z => (z / (2, 0))%C) (fcC (Ci * mh_k mu_0 s * RtoC r)%C)). rewrite exact_on. f_equal.
  change ((2, 0) : C) with (RtoC 2). rewrite RtoC_div by lra. unfold Cdiv. ring.
Qed.
