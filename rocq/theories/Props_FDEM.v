(** Properties C57-C64 and C68: geoana/em/fdem. *)
From Coq Require Import Reals Lra List String.
From Coquelicot Require Import Coquelicot.
From Verif Require Import Vec3 Calculus Cplx Numpy Model_Static Model_FDEM Spec_FDEM
  Proof_FDEM Proof_FDEM2 Proof_FDEM3 Proof_FDEM4 Proof_FDEM5 Proof_FDEM6 Proof_FDEM7 Proof_FDEM8.
Import ListNotations.
Open Scope R_scope.

(** ** C57 *)
Theorem C57_dispersion_relation :
  forall (f sg mu e : R) (q : pyflag),
  let k := wavenumber f sg mu e q in
  (k * k)%C = (if is_True q then - Ci * RtoC (2 * PI * f) * mu * sg
               else RtoC ((2 * PI * f) ^ 2 * mu * e) - Ci * RtoC (2 * PI * f) * mu * sg)%C.
Proof. exact dispersion. Qed.
Theorem C57_branch :
  forall (f sg mu e : R) (q : pyflag), 0 < f -> 0 < sg -> 0 < mu ->
  0 < Re (wavenumber f sg mu e q) /\ Im (wavenumber f sg mu e q) < 0.
Proof. exact wavenumber_branch. Qed.
Theorem C57_only_root :
  forall (f sg mu e : R) (q : pyflag) (w : C), 0 < Re w ->
  (w * w)%C = (if is_True q then - Ci * RtoC (2 * PI * f) * mu * sg
               else RtoC ((2 * PI * f) ^ 2 * mu * e) - Ci * RtoC (2 * PI * f) * mu * sg)%C ->
  w = wavenumber f sg mu e q.
Proof. exact wavenumber_only_root. Qed.
Theorem C57_outgoing_wave_decays :
  forall (f sg mu e : R) (q : pyflag), 0 < f -> 0 < sg -> 0 < mu -> forall r r', r < r' ->
  Cmod (cexp (- Ci * wavenumber f sg mu e q * RtoC r')%C) < Cmod (cexp (- Ci * wavenumber f sg mu e q * RtoC r)%C).
Proof. exact wave_decay. Qed.

(** ** C58 *)
Theorem C58_quasistatic :
  forall f sg mu e : R, 0 < f -> 0 < sg -> 0 < mu ->
  Cmod (cexp (- Ci * wavenumber f sg mu e PyTrue * RtoC (skin_depth f sg mu e PyTrue))%C) = exp (-1).
Proof. intros f sg mu e. exact (skin_depth_qs f sg mu e PyTrue eq_refl). Qed.
(** without the flag it is |Im k| / omega^2 instead of 1 / |Im k| ... *)
Theorem C58_full_value :
  forall f sg mu e : R, 0 < f -> 0 < sg -> 0 < mu -> 0 < e ->
  skin_depth f sg mu e PyFalse = - Im (wavenumber f sg mu e PyFalse) / (2 * PI * f) ^ 2.
Proof. intros f sg mu e. exact (skin_depth_full f sg mu e PyFalse eq_refl). Qed.
(** ... so it is the 1/e distance exactly when |Im k| happens to equal omega *)
Theorem C58_full_exact_domain :
  forall f sg mu e : R, 0 < f -> 0 < sg -> 0 < mu -> 0 < e ->
  Cmod (cexp (- Ci * wavenumber f sg mu e PyFalse * RtoC (skin_depth f sg mu e PyFalse))%C) = exp (-1) <->
  Im (wavenumber f sg mu e PyFalse) = - (2 * PI * f).
Proof. intros f sg mu e. exact (skin_depth_full_correct_iff f sg mu e PyFalse eq_refl). Qed.
Theorem C58_full_refuted :
  exists f sg mu e : R, 0 < f /\ 0 < sg /\ 0 < mu /\ 0 < e /\
  Cmod (cexp (- Ci * wavenumber f sg mu e PyFalse * RtoC (skin_depth f sg mu e PyFalse))%C) <> exp (-1).
Proof.
  exists (/ (2 * PI)), (sqrt 3), 1, 1. destruct skin_depth_witness as [A [B D]].
  split; [exact A|split; [exact B|split; [lra|split; [lra|exact D]]]].
Qed.

(** ** C59 *)
Theorem C59_exact_domain :
  forall (f sg mu : R) (q : pyflag), 0 < f -> 0 < sg -> 0 < mu ->
  (ignores_permittivity (fun e => wavenumber f sg mu e q) <-> ignores_permittivity (fun e => sigma_hat f sg e q)) /\
  ((ignores_permittivity (fun e => wavenumber f sg mu e q) <-> ignores_permittivity (fun e => skin_depth f sg mu e q)) <->
   q <> OtherObject true).
Proof. exact flag_agree. Qed.
(** e.g. quasistatic=1 or numpy.True_ *)
Theorem C59_truthy_flag_refuted :
  exists q : pyflag, forall f sg mu : R, 0 < f -> 0 < sg -> 0 < mu ->
  ~ ignores_permittivity (fun e => wavenumber f sg mu e q) /\ ignores_permittivity (fun e => skin_depth f sg mu e q).
Proof.
  exists (OtherObject true). intros f sg mu F S M. split.
  - intro E. apply (wavenumber_ignores f sg mu _ F M) in E. discriminate.
  - apply (skin_depth_ignores f sg mu _ F S M). reflexivity.
Qed.

(** ** C60 *)
Theorem C60_maxwell_quasistatic :
  forall (s : edip) (p : vec3), is_True (fd_qs (ed_med s)) = true -> fd_sigma (ed_med s) <> 0 -> p <> ed_loc s ->
  is_ccurl (ed_E s) p (cvscal (- Ci * RtoC (2 * PI * fd_freq (ed_med s)))%C (ed_B s p)) /\
  is_ccurl (ed_H s) p (ed_J s p) /\ ed_J s p = cvscal (fd_sigma (ed_med s)) (ed_E s p) /\
  ed_B s p = cvscal (fd_mu (ed_med s)) (ed_H s p) /\ is_cdiv (ed_E s) p 0 /\ is_cdiv (ed_H s) p 0.
Proof. exact ed_maxwell_quasistatic. Qed.
(** for any flag: H = curl A, curl H = sigma E, and curl E is wrong by the factor sigma_hat / sigma *)
Theorem C60_curls_in_general :
  forall (s : edip) (p : vec3), fd_sigma (ed_med s) <> 0 -> p <> ed_loc s ->
  let hat := (RtoC (fd_sigma (ed_med s)) + (if is_True (fd_qs (ed_med s)) then 0 else Ci * RtoC (2 * PI * fd_freq (ed_med s)) * fd_eps (ed_med s)))%C in
  is_ccurl (ed_A s) p (ed_H s p) /\
  is_ccurl (ed_H s) p (cvscal (fd_sigma (ed_med s)) (ed_E s p)) /\
  is_ccurl (ed_E s) p (cvscal (- Ci * RtoC (2 * PI * fd_freq (ed_med s)) * fd_mu (ed_med s) * (hat / fd_sigma (ed_med s)))%C (ed_H s p)) /\
  is_cdiv (ed_E s) p 0 /\ is_cdiv (ed_H s) p 0.
Proof. exact ed_maxwell_general. Qed.
(** with displacement currents Faraday's law fails at every point off the axis *)
Theorem C60_faraday_refuted :
  forall (s : edip) (p : vec3), is_True (fd_qs (ed_med s)) = false ->
  0 < fd_freq (ed_med s) -> 0 < fd_sigma (ed_med s) -> 0 < fd_mu (ed_med s) -> 0 < fd_eps (ed_med s) ->
  ed_current s * ed_length s <> 0 -> vcross (ed_orient s) (vsub p (ed_loc s)) <> vzero ->
  ~ is_ccurl (ed_E s) p (cvscal (- Ci * RtoC (2 * PI * fd_freq (ed_med s)) * fd_mu (ed_med s))%C (ed_H s p)).
Proof. exact ed_faraday_fails. Qed.
(** and E * sigma / sigma_hat would satisfy both laws *)
Theorem C60_corrected_field :
  forall (s : edip) (p : vec3), 0 < fd_freq (ed_med s) -> 0 < fd_sigma (ed_med s) -> p <> ed_loc s ->
  let E' q := cvscal (RtoC (fd_sigma (ed_med s)) / fd_sigma_hat (ed_med s))%C (ed_E s q) in
  is_ccurl E' p (cvscal (- Ci * RtoC (2 * PI * fd_freq (ed_med s)))%C (ed_B s p)) /\
  is_ccurl (ed_H s) p (cvscal (fd_sigma_hat (ed_med s)) (E' p)).
Proof. exact ed_corrected. Qed.

(** ** C61 *)
Theorem C61_maxwell :
  forall (s : mdip) (p : vec3), p <> mf_loc s ->
  let hat := (RtoC (fd_sigma (mf_med s)) + (if is_True (fd_qs (mf_med s)) then 0 else Ci * RtoC (2 * PI * fd_freq (mf_med s)) * fd_eps (mf_med s)))%C in
  is_ccurl (mf_E s) p (cvscal (- Ci * RtoC (2 * PI * fd_freq (mf_med s)))%C (mf_B s p)) /\
  is_ccurl (mf_H s) p (cvscal hat (mf_E s p)) /\
  is_ccurl (mf_A s) p (cvscal (- (1))%C (mf_E s p)) /\
  mf_B s p = cvscal (fd_mu (mf_med s)) (mf_H s p) /\ mf_J s p = cvscal (fd_sigma (mf_med s)) (mf_E s p) /\
  is_cdiv (mf_E s) p 0 /\ is_cdiv (mf_H s) p 0.
Proof. exact mf_maxwell. Qed.

(** ** C62 *)
Theorem C62_maxwell :
  forall (s : pwave) (p : vec3), 0 < fd_freq (pw_med s) -> 0 < fd_mu (pw_med s) -> vz (pw_orient s) = 0 ->
  let hat := (RtoC (fd_sigma (pw_med s)) + (if is_True (fd_qs (pw_med s)) then 0 else Ci * RtoC (2 * PI * fd_freq (pw_med s)) * fd_eps (pw_med s)))%C in
  is_ccurl (pw_E s) p (cvscal (- Ci * RtoC (2 * PI * fd_freq (pw_med s)))%C (pw_B s p)) /\
  is_ccurl (pw_H s) p (cvscal hat (pw_E s p)) /\
  pw_B s p = cvscal (fd_mu (pw_med s)) (pw_H s p) /\ pw_J s p = cvscal (fd_sigma (pw_med s)) (pw_E s p) /\
  is_cdiv (pw_E s) p 0 /\ is_cdiv (pw_B s) p 0.
Proof. exact pw_maxwell. Qed.
Theorem C62_transverse :
  forall s : pwave, vz (pw_orient s) = 0 -> forall p,
  cvz (pw_E s p) = 0%C /\ cvz (pw_B s p) = 0%C /\ cvdot (pw_B s p) (pw_orient s) = 0%C.
Proof. exact pw_transverse. Qed.
Theorem C62_amplitude :
  forall (s : pwave) (p : vec3), vz p = 0 -> pw_E s p = cvof (pw_amp s) (pw_orient s).
Proof.
  intros s p Z. rewrite pw_E_z, Z. replace (Ci * fd_k (pw_med s) * RtoC 0)%C with (RtoC 0) by ring.
  rewrite cexp_0. f_equal. ring.
Qed.
(** going up by d multiplies every component by e; d is the skin depth if quasistatic *)
Theorem C62_decays_downward :
  forall s : pwave, 0 < fd_freq (pw_med s) -> 0 < fd_sigma (pw_med s) -> 0 < fd_mu (pw_med s) ->
  exists d, 0 < d /\ (truth (fd_qs (pw_med s)) = true -> is_True (fd_qs (pw_med s)) = true -> d = fd_skin_depth (pw_med s)) /\
  forall p q,
    (Cmod (cvx (pw_E s p)) = Cmod (cvx (pw_E s q)) * exp ((vz p - vz q) / d)) /\
    (Cmod (cvy (pw_E s p)) = Cmod (cvy (pw_E s q)) * exp ((vz p - vz q) / d)) /\
    (Cmod (cvx (pw_B s p)) = Cmod (cvx (pw_B s q)) * exp ((vz p - vz q) / d)) /\
    (Cmod (cvy (pw_B s p)) = Cmod (cvy (pw_B s q)) * exp ((vz p - vz q) / d)).
Proof. exact pw_decay. Qed.

(** ** C63 *)
Theorem C63_magnetic_dipole :
  forall (s : mdip) (p h : vec3), fd_freq (mf_med s) = 0 -> p <> mf_loc s -> fd_mu (mf_med s) <> 0 ->
  mdipole_field (MD (mf_moment s) (mf_orient s) (mf_loc s) (fd_mu (mf_med s))) "cartesian"%string p = Ok h ->
  mf_H s p = cvof 1%C h.
Proof. exact mf_static. Qed.
Theorem C63_magnetic_dipole_no_electric_field :
  forall (s : mdip) (p : vec3), fd_freq (mf_med s) = 0 -> p <> mf_loc s -> mf_E s p = cvzero.
Proof. exact mf_E_zero. Qed.
Theorem C63_static_dipole_is_defined :
  forall (s : mdipole) (p : vec3), p <> md_loc s -> md_mu s <> 0 -> exists h, mdipole_field s "cartesian"%string p = Ok h.
Proof. exact mdipole_total. Qed.
(** minus the gradient of the dipole potential I l n.r / (4 pi sigma r^3) *)
Theorem C63_electric_dipole :
  forall (s : edip) (p : vec3), fd_freq (ed_med s) = 0 -> 0 < fd_sigma (ed_med s) -> p <> ed_loc s ->
  exists e, ed_E s p = cvof 1%C e /\
    is_grad (fun q => ed_current s * ed_length s * vdot (ed_orient s) (vsub q (ed_loc s)) / (4 * PI * fd_sigma (ed_med s) * vnorm (vsub q (ed_loc s)) ^ 3)) p (vopp e).
Proof. exact ed_static. Qed.
(** and H is that of a current element *)
Theorem C63_electric_dipole_magnetic_field :
  forall (s : edip) (p : vec3), fd_freq (ed_med s) = 0 -> p <> ed_loc s ->
  ed_H s p = cvof 1%C (vscal (ed_current s * ed_length s / (4 * PI * vnorm (vsub p (ed_loc s)) ^ 3)) (vcross (ed_orient s) (vsub p (ed_loc s)))).
Proof. exact ed_static_H. Qed.

(** ** C64 *)
Theorem C64_total_is_secondary_plus_primary :
  forall (iv kv : nat -> C -> C) (mu_0 : R) (s : mhalf) (p : vec3) (mu : R),
  beside p (mh_loc s) -> vz p = vz (mh_loc s) -> mu <> 0 ->
  exists h, mdipole_field (MD (mh_moment s) (mh_orient s) (mh_loc s) mu) "cartesian"%string p = Ok h /\
    mh_H iv kv mu_0 s false p = cvadd (mh_H iv kv mu_0 s true p) (cvof 1%C h).
Proof. exact mh_total. Qed.
Theorem C64_linear_in_moment :
  forall (iv kv : nat -> C -> C) (mu_0 m : R) (o loc : vec3) (md : fdem) (a : R) (sec : bool) (p : vec3),
  mh_H iv kv mu_0 (MH md (a * m) o loc) sec p = cvscal a (mh_H iv kv mu_0 (MH md m o loc) sec p).
Proof. exact mh_moment_linear. Qed.
Theorem C64_superposition_of_orientations :
  forall (iv kv : nat -> C -> C) (mu_0 m : R) (loc : vec3) (md : fdem) (sec : bool) (p o1 o2 : vec3), beside p loc ->
  mh_H iv kv mu_0 (MH md m (vadd o1 o2) loc) sec p =
  cvadd (mh_H iv kv mu_0 (MH md m o1 loc) sec p) (mh_H iv kv mu_0 (MH md m o2 loc) sec p).
Proof. intros iv kv mu_0 m loc md sec p o1 o2 O. apply mh_superpose. exact O. Qed.
Theorem C64_rotation_about_the_vertical :
  forall (iv kv : nat -> C -> C) (mu_0 : R) (md : fdem) (m : R) (o loc : vec3) (sec : bool) (p : vec3) (t : R), beside p loc ->
  mh_H iv kv mu_0 (MH md m (rotate_z t o) (rotate_z t loc)) sec (rotate_z t p) =
  crotate_z t (mh_H iv kv mu_0 (MH md m o loc) sec p).
Proof. exact mh_rotate. Qed.
Theorem C64_reciprocity :
  forall (iv kv : nat -> C -> C) (mu_0 : R) (md : fdem) (m : R) (loc : vec3) (sec : bool) (p : vec3), beside p loc ->
  let h o := mh_H iv kv mu_0 (MH md m o loc) sec p in
  cvy (h (V3 1 0 0)) = cvx (h (V3 0 1 0)) /\
  cvz (h (V3 1 0 0)) = (- cvx (h (V3 0 0 1)))%C /\
  cvz (h (V3 0 1 0)) = (- cvy (h (V3 0 0 1)))%C.
Proof. exact mh_reciprocal. Qed.
(** the horizontal field of a horizontal dipole is minus a surface gradient *)
Theorem C64_horizontal_field_is_a_gradient :
  forall (iv kv : nat -> C -> C) (mu_0 : R) (s : mhalf), 0 < mu_0 -> 0 < fd_freq (mh_med s) -> 0 < fd_sigma (mh_med s) ->
  vz (mh_orient s) = 0 ->
  exists pot : R -> R -> C, forall q, beside q (mh_loc s) ->
    is_cderive (fun t => pot t (vy q)) (vx q) (- cvx (mh_H iv kv mu_0 s false q))%C /\
    is_cderive (fun t => pot (vx q) t) (vy q) (- cvy (mh_H iv kv mu_0 s false q))%C.
Proof. exact mh_potential. Qed.
(** the secondary field vanishes as f -> 0 (so the total tends to the static dipole
    field), provided I1 K1 - I2 K2 is bounded near 0 *)
Theorem C64_low_frequency_limit :
  forall (iv kv : nat -> C -> C) (mu_0 B : R) (s : mhalf) (p : vec3),
  (forall z, Cmod z <= 1 -> Cmod (iv 1%nat z * kv 1%nat z - iv 2%nat z * kv 2%nat z)%C <= B) ->
  0 < mu_0 -> 0 < fd_sigma (mh_med s) -> 0 <= fd_eps (mh_med s) -> beside p (mh_loc s) ->
  forall eps, 0 < eps -> exists f0, 0 < f0 /\ forall f, 0 < f < f0 ->
    csmall eps (mh_H iv kv mu_0 (with_freq s f) true p).
Proof. exact mh_low_frequency. Qed.
Theorem C64_array_of_frequencies :
  forall (iv kv : nat -> C -> C) (mu_0 : R) (s : mhalf) (fs : list R) (sec : bool) (xy : points), exists h,
  mh_magnetic_field iv kv mu_0 s (Array fs) sec xy = Ok h /\ List.length h = List.length fs /\
  forall i j f p, nth_error fs i = Some f ->
    nth_error (match xy with OnePoint p => [p] | Grid ps => ps end) j = Some p ->
    exists row, nth_error h i = Some row /\ nth_error row j = Some (mh_H iv kv mu_0 (with_freq s f) sec p).
Proof. exact mh_array. Qed.
Theorem C64_scalar_frequency_refuted :
  forall (iv kv : nat -> C -> C) (mu_0 : R) (s : mhalf) (f : R) (sec : bool) (ps : list vec3),
  mh_magnetic_field iv kv mu_0 s (Scalar f) sec (Grid ps) = Raise IndexError.
Proof. exact mh_scalar. Qed.
Theorem C64_permeability_refuted :
  forall (iv kv : nat -> C -> C) (mu_0 f sg mu mu' e : R) (q : pyflag) (m : R) (o loc : vec3) (sec : bool) (p : vec3),
  mh_H iv kv mu_0 (MH (FD f sg mu e q) m o loc) sec p = mh_H iv kv mu_0 (MH (FD f sg mu' e q) m o loc) sec p.
Proof. exact mh_ignores_mu. Qed.

(** ** C68 *)
Theorem C68_total_minus_secondary :
  forall f sg mu a I n : R,
  loop_hz f sg mu a I n false = (loop_hz f sg mu a I n true + RtoC (n * (I / 2 / a)))%C.
Proof. exact loop_total_secondary. Qed.
Theorem C68_flux :
  forall (f sg mu a I n : R) (sec : bool), loop_bz f sg mu a I n sec = (RtoC mu * loop_hz f sg mu a I n sec)%C.
Proof. reflexivity. Qed.
Theorem C68_linear :
  forall (f sg mu a I n : R) (sec : bool) (c : R),
  loop_hz f sg mu a (c * I) n sec = (RtoC c * loop_hz f sg mu a I n sec)%C /\
  loop_hz f sg mu a I (c * n) sec = (RtoC c * loop_hz f sg mu a I n sec)%C.
Proof. exact loop_linear. Qed.
Theorem C68_low_frequency_bound :
  forall f sg mu a I n : R, 0 < f -> 0 < sg -> 0 < mu -> 0 < a -> 2 * PI * f * mu * sg * a ^ 2 <= 1 ->
  Cmod (loop_hz f sg mu a I n true) <= 170 * Rabs (n * I) * sqrt (2 * PI * f * mu * sg).
Proof. exact loop_secondary_bound. Qed.
Theorem C68_low_frequency_limit :
  forall sg mu a I n : R, 0 < sg -> 0 < mu -> 0 < a -> forall eps, 0 < eps ->
  exists f0, 0 < f0 /\ forall f, 0 < f < f0 -> Cmod (loop_hz f sg mu a I n true) < eps.
Proof. exact loop_secondary_limit. Qed.

(** the hypotheses are met by concrete objects *)
Example C57_witness : exists w : C, 0 < Re w /\ (w * w)%C = (- Ci * RtoC (2 * PI * / PI) * RtoC 1 * RtoC 1)%C.
Proof.
  exists (1, -1). split; [simpl; lra|]. replace (2 * PI * / PI) with 2 by (field; apply PI_neq0).
  apply C_eq; simpl; ring.
Qed.
Example C60_C63_witness :
  let s := ED (FD 10 2 1 3 PyFalse) 1 2 (V3 1 0 0) (V3 0 0 1) in let p := V3 1 2 3 in
  is_True (fd_qs (ed_med s)) = false /\ 0 < fd_freq (ed_med s) /\ 0 < fd_sigma (ed_med s) /\ 0 < fd_mu (ed_med s) /\
  0 < fd_eps (ed_med s) /\ ed_current s * ed_length s <> 0 /\ vcross (ed_orient s) (vsub p (ed_loc s)) <> vzero /\ p <> ed_loc s.
Proof.
  cbv zeta. repeat split; cbn; try lra; intro E; injection E; intros; lra.
Qed.
Example C62_witness :
  let s := PW (FD 10 2 1 3 PyTrue) 5 (V3 (3 / 5) (4 / 5) 0) in
  0 < fd_freq (pw_med s) /\ 0 < fd_sigma (pw_med s) /\ 0 < fd_mu (pw_med s) /\ vz (pw_orient s) = 0 /\
  truth (fd_qs (pw_med s)) = true /\ is_True (fd_qs (pw_med s)) = true.
Proof. cbv zeta. repeat split; cbn; lra. Qed.
Example C64_witness :
  let s := MH (FD 10 2 1 3 PyFalse) 5 (V3 (3 / 5) (4 / 5) 0) (V3 1 2 0) in let p := V3 1 5 0 in
  let iv (n : nat) (z : C) := z in let kv (n : nat) (z : C) := RtoC 1 in
  beside p (mh_loc s) /\ vz p = vz (mh_loc s) /\ 0 < fd_freq (mh_med s) /\ 0 < fd_sigma (mh_med s) /\ 0 <= fd_eps (mh_med s) /\
  vz (mh_orient s) = 0 /\
  (forall z, Cmod z <= 1 -> Cmod (iv 1%nat z * kv 1%nat z - iv 2%nat z * kv 2%nat z)%C <= 1).
Proof.
  cbv zeta. repeat split; cbn; try lra; [right; cbn; lra|].
  intros z _. replace (z * RtoC 1 - z * RtoC 1)%C with (RtoC 0) by ring. rewrite Cmod_0. lra.
Qed.
Example C68_witness : 0 < / (4 * PI) /\ 2 * PI * / (4 * PI) * 1 * 1 * 1 ^ 2 <= 1.
Proof.
  pose proof PI_RGT_0. split; [apply Rinv_0_lt_compat; lra|].
  replace (2 * PI * / (4 * PI) * 1 * 1 * 1 ^ 2) with (1 / 2) by (field; lra). lra.
Qed.
Print Assumptions C57_dispersion_relation.
Print Assumptions C57_branch.
Print Assumptions C57_only_root.
Print Assumptions C57_outgoing_wave_decays.
Print Assumptions C58_quasistatic.
Print Assumptions C58_full_value.
Print Assumptions C58_full_exact_domain.
Print Assumptions C58_full_refuted.
Print Assumptions C59_exact_domain.
Print Assumptions C59_truthy_flag_refuted.
Print Assumptions C60_maxwell_quasistatic.
Print Assumptions C60_curls_in_general.
Print Assumptions C60_faraday_refuted.
Print Assumptions C60_corrected_field.
Print Assumptions C61_maxwell.
Print Assumptions C62_maxwell.
Print Assumptions C62_transverse.
Print Assumptions C62_amplitude.
Print Assumptions C62_decays_downward.
Print Assumptions C63_magnetic_dipole.
Print Assumptions C63_magnetic_dipole_no_electric_field.
Print Assumptions C63_static_dipole_is_defined.
Print Assumptions C63_electric_dipole.
Print Assumptions C63_electric_dipole_magnetic_field.
Print Assumptions C64_total_is_secondary_plus_primary.
Print Assumptions C64_linear_in_moment.
Print Assumptions C64_superposition_of_orientations.
Print Assumptions C64_rotation_about_the_vertical.
Print Assumptions C64_reciprocity.
Print Assumptions C64_horizontal_field_is_a_gradient.
Print Assumptions C64_low_frequency_limit.
Print Assumptions C64_array_of_frequencies.
Print Assumptions C64_scalar_frequency_refuted.
Print Assumptions C64_permeability_refuted.
Print Assumptions C68_total_minus_secondary.
Print Assumptions C68_flux.
Print Assumptions C68_linear.
Print Assumptions C68_low_frequency_bound.
Print Assumptions C68_low_frequency_limit.
