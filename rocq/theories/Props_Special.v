(** Property C140: overflow and underflow in the dipole on a half-space. *)
From Coq Require Import Reals Lra.
From Coquelicot Require Import Coquelicot.
From Verif Require Import Vec3 Cplx Model_FDEM Spec_HalfSpace Spec_Mirror Proof_HalfSpace4 Model_Special Spec_Special Proof_Special Proof_Special2.
Open Scope R_scope.

(** the field of a vertical dipole is not returned everywhere: 2000 skin depths away, whatever the rounding, the library functions
    and iv are, both horizontal components come out as exact zeros or nan, while the radial field is at least 4/x of the dipole
    field.  The argument of iv and kv need only be computed to 5 percent *)
Theorem C140_far_field_of_a_vertical_dipole_lost_refuted :
  forall L iv kv mu_0 s c n r secondary, rd L 0 = Fin 0 -> kv_underflows (l_kv L) -> bessel_products iv kv ->
  0 < mu_0 -> 0 < fd_freq (mh_med s) -> 0 < fd_sigma (mh_med s) -> c * c + n * n = 1 -> 0 < r -> is_True (fd_qs (mh_med s)) = true ->
  let x := skin_depths (fd_freq (mh_med s)) mu_0 (fd_sigma (mh_med s)) r in 2000 <= x ->
  let p := at_distance (mh_loc s) c n r in let o := mh_orient s in let m := mh_moment s / (4 * PI * r ^ 3) in
  let alpha := (Ci * mh_k mu_0 s * RtoC (r / 2))%C in
  (exists a, s_alpha L s p = (Fin (Re a), Fin (Im a)) /\ Cmod (a - alpha)%C <= / 20 * Cmod alpha) ->
  vx o = 0 -> vy o = 0 ->
  let returned := s_H L s secondary p in let exact := mh_H iv kv mu_0 s secondary p in
  clost (fst (fst returned)) /\ clost (snd (fst returned)) /\ 4 / x * Rabs (m * vz o) <= Cmod (radial exact c n).
Proof.
  intros L iv kv mu_0 s c n r secondary R0 KV B M F S U P Q x X p o m alpha A Ox Oy. exact (vertical_source L iv kv mu_0 s c n r B M F S U P Q R0 KV X A secondary Ox Oy).
Qed.

(** the same for the vertical component of a horizontal dipole *)
Theorem C140_far_field_of_a_horizontal_dipole_lost_refuted :
  forall L iv kv mu_0 s c n r secondary, rd L 0 = Fin 0 -> kv_underflows (l_kv L) -> bessel_products iv kv ->
  0 < mu_0 -> 0 < fd_freq (mh_med s) -> 0 < fd_sigma (mh_med s) -> c * c + n * n = 1 -> 0 < r -> is_True (fd_qs (mh_med s)) = true ->
  let x := skin_depths (fd_freq (mh_med s)) mu_0 (fd_sigma (mh_med s)) r in 2000 <= x ->
  let p := at_distance (mh_loc s) c n r in let o := mh_orient s in let m := mh_moment s / (4 * PI * r ^ 3) in
  let alpha := (Ci * mh_k mu_0 s * RtoC (r / 2))%C in
  (exists a, s_alpha L s p = (Fin (Re a), Fin (Im a)) /\ Cmod (a - alpha)%C <= / 20 * Cmod alpha) ->
  vz o = 0 ->
  let returned := s_H L s secondary p in let exact := mh_H iv kv mu_0 s secondary p in
  clost (snd returned) /\ 4 / x * Rabs (m * (vx o * c + vy o * n)) <= Cmod (cvz exact).
Proof.
  intros L iv kv mu_0 s c n r secondary R0 KV B M F S U P Q x X p o m alpha A Oz. exact (horizontal_source L iv kv mu_0 s c n r B M F S U P Q R0 KV X A secondary Oz).
Qed.

(** a library that errs nowhere else than below half the smallest float, a dipole of either kind exactly 2000 skin depths away:
    the hypotheses hold and the exact field is not zero *)
Example C140_witness :
  forall o, o = V3 0 0 1 \/ o = V3 1 0 0 ->
  let s := MH (FD 1 1 1 0 PyTrue) 3 o (V3 4 5 6) in let L := exact_lib (/ PI) (fun _ _ => (Inf false, NaN)) in
  let alpha := (Ci * mh_k (/ PI) s * RtoC (2000 / 2))%C in
  rd L 0 = Fin 0 /\ kv_underflows (l_kv L) /\ (exists iv kv, bessel_products iv kv) /\ 0 < / PI /\ 0 < fd_freq (mh_med s) /\ 0 < fd_sigma (mh_med s) /\
  1 * 1 + 0 * 0 = 1 /\ is_True (fd_qs (mh_med s)) = true /\ skin_depths (fd_freq (mh_med s)) (/ PI) (fd_sigma (mh_med s)) 2000 = 2000 /\
  (exists a, s_alpha L s (at_distance (mh_loc s) 1 0 2000) = (Fin (Re a), Fin (Im a)) /\ Cmod (a - alpha)%C <= / 20 * Cmod alpha) /\
  0 < 4 / 2000 * Rabs (mh_moment s / (4 * PI * 2000 ^ 3) * (vz o + vx o * 1 + vy o * 0)).
Proof.
  intros o Ho s L alpha. pose proof PI_RGT_0 as Pi. split; [reflexivity|]. split; [exact exact_underflows|]. split; [exists the_products, (fun _ _ => RtoC 1); exact products_exist|].
  split; [apply Rinv_0_lt_compat; lra|]. split; [cbn; lra|]. split; [cbn; lra|]. split; [lra|]. split; [reflexivity|]. split.
  { unfold skin_depths. cbn [s mh_med fd_freq fd_sigma]. replace (PI * 1 * / PI * 1) with 1 by (field; lra). rewrite sqrt_1. ring. }
  split.
  - exists alpha. split; [exact (exact_alpha (/ PI) _ s 1 0 2000 ltac:(lra) ltac:(lra))|]. replace (alpha - alpha)%C with (RtoC 0) by ring. rewrite Cmod_0. pose proof (Cmod_ge_0 alpha). lra.
  - apply Rmult_lt_0_compat; [lra|]. apply Rabs_pos_lt. assert (V : vz o + vx o * 1 + vy o * 0 = 1) by (destruct Ho; subst o; cbn; ring). rewrite V, Rmult_1_r. cbn [s mh_moment]. apply Rgt_not_eq, Rdiv_lt_0_compat; [lra|]. assert (0 < 2000 ^ 3) by (apply pow_lt; lra). nra.
Qed.
Print Assumptions C140_far_field_of_a_vertical_dipole_lost_refuted.
Print Assumptions C140_far_field_of_a_horizontal_dipole_lost_refuted.
