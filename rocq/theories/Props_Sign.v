(** Property C141: what coil pairs and loops on the ground read at any frequency. *)
From Coq Require Import Reals Lra.
From Coquelicot Require Import Coquelicot.
From Verif Require Import Vec3 Cplx Model_FDEM Spec_HalfSpace Spec_McNeill Spec_Mirror Proof_Sign2.
Open Scope R_scope.

(** vertical coplanar coils, at any frequency and distance: the displayed conductivity is positive and below the true one, the
    secondary field has an in-phase part along the primary field, and stays within one primary field of its mirror value *)
Theorem C141_vertical_coplanar_coils_at_every_frequency :
  forall iv kv mu_0 s c n r, 0 < mu_0 -> 0 < fd_freq (mh_med s) -> 0 < fd_sigma (mh_med s) -> c * c + n * n = 1 -> 0 < r ->
  is_True (fd_qs (mh_med s)) = true -> mh_moment s <> 0 ->
  let f := fd_freq (mh_med s) in let sg := fd_sigma (mh_med s) in let o := mh_orient s in vy o * c - vx o * n <> 0 ->
  let Hs := transverse (mh_H iv kv mu_0 s true (at_distance (mh_loc s) c n r)) c n in
  let Ht := transverse (mh_H iv kv mu_0 s false (at_distance (mh_loc s) c n r)) c n in
  let Hp := (Ht - Hs)%C in
  0 < apparent_conductivity f mu_0 r Hs Hp < sg /\ 0 < Re (Hs / Hp)%C /\ Cmod (Hs - Hp)%C <= Cmod Hp.
Proof. intros iv kv mu_0 s c n r M F S U P Q Mo f sg o V. exact (meter_all iv kv mu_0 s c n r M F S U P Q Mo V). Qed.

(** the centre of a loop: here the secondary field opposes the primary one, so the meter reads it with the other sign, and the total
    field never exceeds the primary one *)
Theorem C141_central_loop_at_every_frequency :
  forall f sg mu a I n, 0 < f -> 0 < sg -> 0 < mu -> 0 < a -> n * I <> 0 ->
  let Hs := loop_hz f sg mu a I n true in let Ht := loop_hz f sg mu a I n false in let Hp := (Ht - Hs)%C in
  0 < apparent_conductivity f mu a (- Hs)%C Hp < sg /\ Re (Hs / Hp)%C < 0 /\ Cmod Ht <= Cmod Hp.
Proof. exact loop_all. Qed.

(** horizontal coplanar coils are different: five skin depths apart or more, the displayed conductivity is negative *)
Theorem C141_horizontal_coplanar_coils_far_apart :
  forall iv kv mu_0 s c n r, 0 < mu_0 -> 0 < fd_freq (mh_med s) -> 0 < fd_sigma (mh_med s) -> c * c + n * n = 1 -> 0 < r ->
  is_True (fd_qs (mh_med s)) = true -> mh_moment s <> 0 ->
  let f := fd_freq (mh_med s) in let sg := fd_sigma (mh_med s) in let o := mh_orient s in
  5 <= skin_depths f mu_0 sg r -> vx o * c + vy o * n = 0 -> vz o <> 0 ->
  let Hs := cvz (mh_H iv kv mu_0 s true (at_distance (mh_loc s) c n r)) in
  let Ht := cvz (mh_H iv kv mu_0 s false (at_distance (mh_loc s) c n r)) in
  apparent_conductivity f mu_0 r Hs (Ht - Hs)%C < 0.
Proof. intros iv kv mu_0 s c n r M F S U P Q Mo f sg o X Z V. exact (meter_negative iv kv mu_0 s c n r M F S U P Q Mo X Z V). Qed.

(** a slanting dipole read ten skin depths away by coils of either kind *)
Example C141_witness :
  let s := MH (FD 1 1 1 0 PyTrue) 3 (V3 0 1 1) (V3 4 5 6) in let o := mh_orient s in
  0 < / PI /\ 0 < fd_freq (mh_med s) /\ 0 < fd_sigma (mh_med s) /\ 1 * 1 + 0 * 0 = 1 /\ is_True (fd_qs (mh_med s)) = true /\ mh_moment s <> 0 /\
  skin_depths (fd_freq (mh_med s)) (/ PI) (fd_sigma (mh_med s)) 10 = 10 /\
  vx o * 1 + vy o * 0 = 0 /\ vz o <> 0 /\ vy o * 1 - vx o * 0 <> 0.
Proof.
  cbn. pose proof PI_RGT_0. repeat split; try lra; [apply Rinv_0_lt_compat; lra|]. unfold skin_depths. replace (PI * 1 * / PI * 1) with 1 by (field; lra). rewrite sqrt_1. ring.
Qed.
Print Assumptions C141_vertical_coplanar_coils_at_every_frequency.
Print Assumptions C141_central_loop_at_every_frequency.
Print Assumptions C141_horizontal_coplanar_coils_far_apart.
