(** Property C129: low induction numbers. *)
From Coq Require Import Reals Lra.
From Coquelicot Require Import Coquelicot.
From Verif Require Import Vec3 Cplx Model_FDEM Spec_HalfSpace Spec_McNeill Proof_McNeill Proof_McNeill2.
Open Scope R_scope.

(** the returned secondary field of a dipole on a half-space is the quadrature term i N/4 of its free-space field, up to N sqrt N *)
Theorem C129_dipole_at_low_induction_numbers :
  forall iv kv mu_0 s c n r, 0 < mu_0 -> 0 < fd_freq (mh_med s) -> 0 < fd_sigma (mh_med s) -> c * c + n * n = 1 -> 0 < r ->
  let N := induction_number (fd_freq (mh_med s)) mu_0 (Cmod (fd_sigma_hat (mh_med s))) r in N <= 1 ->
  let b := (Ci * RtoC (2 * PI * fd_freq (mh_med s) * mu_0) * fd_sigma_hat (mh_med s) * RtoC (r ^ 2) / 4)%C in
  let H := mh_H iv kv mu_0 s true (at_distance (mh_loc s) c n r) in
  let m := mh_moment s / (4 * PI * r ^ 3) in let o := mh_orient s in
  (vx o * c + vy o * n = 0 -> Cmod (cvz H + RtoC (m * vz o) * b)%C <= Rabs (m * vz o) * (N * sqrt N)) /\
  Cmod (transverse H c n + RtoC (m * (vy o * c - vx o * n)) * b)%C <= 3 / 10 * Rabs (m * (vy o * c - vx o * n)) * (N * sqrt N) /\
  (vz o = 0 -> Cmod (radial H c n) <= Rabs (m * (vx o * c + vy o * n)) * (N * sqrt N)).
Proof.
  intros iv kv mu_0 s c n r M F S U P N N1 b H m o. split; [|split].
  - exact (small_vertical iv kv mu_0 s c n r M F S U P N1).
  - exact (small_transverse iv kv mu_0 s c n r M F S U P N1).
  - exact (small_radial iv kv mu_0 s c n r M F S U P N1).
Qed.

(** a meter made of two coplanar coils, both horizontal or both vertical, displays the conductivity of the ground; the primary
    field is what secondary=True leaves out *)
Theorem C129_a_meter_displays_the_conductivity :
  forall iv kv mu_0 s c n r, 0 < mu_0 -> 0 < fd_freq (mh_med s) -> 0 < fd_sigma (mh_med s) -> c * c + n * n = 1 -> 0 < r ->
  is_True (fd_qs (mh_med s)) = true -> mh_moment s <> 0 ->
  let f := fd_freq (mh_med s) in let sg := fd_sigma (mh_med s) in let o := mh_orient s in
  let N := induction_number f mu_0 sg r in N <= 1 ->
  let Hs := mh_H iv kv mu_0 s true (at_distance (mh_loc s) c n r) in
  let Ht := mh_H iv kv mu_0 s false (at_distance (mh_loc s) c n r) in
  (vx o * c + vy o * n = 0 -> vz o <> 0 ->
   Rabs (apparent_conductivity f mu_0 r (cvz Hs) (cvz Ht - cvz Hs)%C - sg) <= 4 * sg * sqrt N) /\
  (vy o * c - vx o * n <> 0 ->
   Rabs (apparent_conductivity f mu_0 r (transverse Hs c n) (transverse Ht c n - transverse Hs c n)%C - sg) <= 6 / 5 * sg * sqrt N).
Proof.
  intros iv kv mu_0 s c n r M F S U P Q Mo f sg o N N1 Hs Ht. split.
  - exact (meter_vertical iv kv mu_0 s c n r M F S U P Q Mo N1).
  - exact (meter_transverse iv kv mu_0 s c n r M F S U P Q Mo N1).
Qed.

(** the secondary field at the centre of a loop on the ground, of primary field n I / (2 a) *)
Theorem C129_loop_at_low_induction_numbers :
  forall f sg mu a I n, 0 < f -> 0 < sg -> 0 < mu -> 0 < a -> let N := induction_number f mu sg a in N <= 1 ->
  Cmod (loop_hz f sg mu a I n true + RtoC (n * I / (2 * a)) * (Ci * RtoC (N / 4)))%C <= 3 / 10 * Rabs (n * I / (2 * a)) * (N * sqrt N).
Proof. exact loop_low. Qed.

(** a slanting dipole over a ground with N = 1/2: both coil arrangements have something to read *)
Example C129_witness :
  let s := MH (FD 1 1 1 0 PyTrue) 3 (V3 0 1 1) (V3 4 5 6) in let o := mh_orient s in
  0 < / (4 * PI) /\ 0 < fd_freq (mh_med s) /\ 0 < fd_sigma (mh_med s) /\ 1 * 1 + 0 * 0 = 1 /\ is_True (fd_qs (mh_med s)) = true /\ mh_moment s <> 0 /\
  induction_number (fd_freq (mh_med s)) (/ (4 * PI)) (fd_sigma (mh_med s)) 1 = 1 / 2 /\
  vx o * 1 + vy o * 0 = 0 /\ vz o <> 0 /\ vy o * 1 - vx o * 0 <> 0.
Proof.
  cbn. pose proof PI_RGT_0. repeat split; try lra; [apply Rinv_0_lt_compat; lra|]. unfold induction_number. field. lra.
Qed.
Print Assumptions C129_dipole_at_low_induction_numbers.
Print Assumptions C129_a_meter_displays_the_conductivity.
Print Assumptions C129_loop_at_low_induction_numbers.
