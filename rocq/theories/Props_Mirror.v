(** Property C139: many skin depths away the ground is a mirror. *)
From Coq Require Import Reals Lra.
From Coquelicot Require Import Coquelicot.
From Verif Require Import Vec3 Cplx Model_FDEM Spec_HalfSpace Spec_Mirror Proof_HalfSpace4 Proof_Mirror4.
Open Scope R_scope.

(** the returned total field of a dipole on a quasistatic half-space, [x] skin depths away: twice the horizontal free-space field,
    then a part that falls off like 1/x and 1/x^2, then a remainder that is given *)
Theorem C139_dipole_many_skin_depths_away :
  forall iv kv mu_0 s c n r, bessel_products iv kv ->
  0 < mu_0 -> 0 < fd_freq (mh_med s) -> 0 < fd_sigma (mh_med s) -> c * c + n * n = 1 -> 0 < r -> is_True (fd_qs (mh_med s)) = true ->
  let x := skin_depths (fd_freq (mh_med s)) mu_0 (fd_sigma (mh_med s)) r in
  let H := mh_H iv kv mu_0 s false (at_distance (mh_loc s) c n r) in
  let m := mh_moment s / (4 * PI * r ^ 3) in let o := mh_orient s in
  let mz := m * vz o in let mr := m * (vx o * c + vy o * n) in let mt := m * (vy o * c - vx o * n) in
  Cmod (cvz H - (RtoC mz * (Ci * RtoC (9 / x ^ 2)) + RtoC mr * (RtoC (3 / x) * (RtoC 1 - Ci))))%C <= Rabs mz * through_vertical x + Rabs mr * (264 / x ^ 2) /\
  Cmod (transverse H c n + RtoC mt * (RtoC 2 + Ci * RtoC (3 / x ^ 2)))%C <= Rabs mt * through_transverse x /\
  Cmod (radial H c n - (RtoC mr * (RtoC 4 + Ci * RtoC (12 / x ^ 2)) - RtoC mz * (RtoC (3 / x) * (RtoC 1 - Ci))))%C <= Rabs mr * through_radial x + Rabs mz * (264 / x ^ 2).
Proof.
  intros iv kv mu_0 s c n r B M F S U P Q x H m o mz mr mt. split; [|split].
  - exact (vertical_tot iv kv mu_0 s c n r B M F S U P Q).
  - exact (transverse_tot iv kv mu_0 s c n r M F S U P Q).
  - exact (radial_tot iv kv mu_0 s c n r B M F S U P Q).
Qed.

(** in the limit: the vertical field vanishes, and what the ground adds (secondary=True) to the horizontal free-space field, which
    is the total less the secondary field, is that field once more *)
Theorem C139_the_ground_becomes_a_mirror :
  forall iv kv mu_0 s c n r, bessel_products iv kv ->
  0 < mu_0 -> 0 < fd_freq (mh_med s) -> 0 < fd_sigma (mh_med s) -> c * c + n * n = 1 -> 0 < r -> is_True (fd_qs (mh_med s)) = true ->
  let x := skin_depths (fd_freq (mh_med s)) mu_0 (fd_sigma (mh_med s)) r in 1 <= x ->
  let Ht := mh_H iv kv mu_0 s false (at_distance (mh_loc s) c n r) in
  let Hs := mh_H iv kv mu_0 s true (at_distance (mh_loc s) c n r) in
  let m := mh_moment s / (4 * PI * r ^ 3) in let o := mh_orient s in
  let mz := m * vz o in let mr := m * (vx o * c + vy o * n) in let mt := m * (vy o * c - vx o * n) in
  Cmod (cvz Ht) <= 269 / x * (Rabs mz + Rabs mr) /\
  Cmod (transverse Hs c n - (transverse Ht c n - transverse Hs c n))%C <= 63 / x ^ 2 * Rabs mt /\
  Cmod (radial Hs c n - (radial Ht c n - radial Hs c n))%C <= 269 / x * (Rabs mz + Rabs mr).
Proof.
  intros iv kv mu_0 s c n r B M F S U P Q x X Ht Hs m o mz mr mt. split; [|split].
  - exact (image_vertical iv kv mu_0 s c n r B M F S U P Q X).
  - exact (image_transverse iv kv mu_0 s c n r M F S U P Q X).
  - exact (image_radial iv kv mu_0 s c n r B M F S U P Q X).
Qed.

(** the total field at the centre of a loop of [n] turns many skin depths wide: all that is left of n I / (2 a) is the quadrature
    part -(3 i / x^2) of it, up to a remainder that is given *)
Theorem C139_loop_many_skin_depths_wide :
  forall f sg mu a I n, 0 < f -> 0 < sg -> 0 < mu -> 0 < a -> let x := skin_depths f mu sg a in
  Cmod (loop_hz f sg mu a I n false + RtoC (n * I / a) * (Ci * RtoC (3 / 2 / x ^ 2)))%C <= / 2 * Rabs (n * I / a) * through_transverse x.
Proof. exact loop_far. Qed.

(** a slanting dipole a thousand skin depths away, seen in a slanting direction, with functions that have the products of the
    modified Bessel functions *)
Example C139_witness :
  (exists iv kv, bessel_products iv kv) /\
  let s := MH (FD 1 1 1 0 PyTrue) 3 (V3 1 1 1) (V3 4 5 6) in
  0 < / PI /\ 0 < fd_freq (mh_med s) /\ 0 < fd_sigma (mh_med s) /\ 3 / 5 * (3 / 5) + 4 / 5 * (4 / 5) = 1 /\ is_True (fd_qs (mh_med s)) = true /\
  skin_depths (fd_freq (mh_med s)) (/ PI) (fd_sigma (mh_med s)) 1000 = 1000.
Proof.
  split; [exists the_products, (fun _ _ => RtoC 1); exact products_exist|]. cbn. pose proof PI_RGT_0. repeat split; try lra; [apply Rinv_0_lt_compat; lra|]. unfold skin_depths.
  replace (PI * 1 * / PI * 1) with 1 by (field; lra). rewrite sqrt_1. ring.
Qed.
(** the remainders are small *)
Lemma C139_remainders x : 1 <= x -> through_transverse x <= 60 / x ^ 2 /\ through_vertical x <= 198 / x ^ 2 /\ through_radial x <= 252 / x ^ 2.
Proof. exact (through_bounds x). Qed.
Print Assumptions C139_dipole_many_skin_depths_away.
Print Assumptions C139_the_ground_becomes_a_mirror.
Print Assumptions C139_loop_many_skin_depths_wide.
