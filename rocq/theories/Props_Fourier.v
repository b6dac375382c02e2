(** C98: the transient and the harmonic solutions describe the same physical system: the harmonic
    answer (quasistatic) is the Fourier transform of the impulse response, and the impulse response is minus the time
    derivative of the answer to a switched-off steady source.  Definitions: Spec_Fourier.v. *)
From Coq Require Import Reals Lra List.
From Coquelicot Require Import Coquelicot.
From Verif Require Import Vec3 Cplx Numpy Model_Static Model_TDEM Model_FDEM Spec_TDEM Spec_Fourier Proof_Fourier Proof_Fourier6 Proof_Fourier7 Proof_Fourier8 Proof_TDEM Proof_TDEM3.
Import ListNotations.
Open Scope R_scope.

(** the harmonic source with the attributes of the transient one, at frequency [f]; the permittivity [eps] plays no role *)
Definition harmonic_dipole (s : tedip) (f eps : R) : edip :=
  ED (FD f (td_sigma (te_med s)) (td_mu (te_med s)) eps PyTrue) (te_current s) (te_length s) (te_orient s) (te_loc s).
Definition harmonic_wave (s : tpwave) (f eps : R) : pwave :=
  PW (FD f (td_sigma (tp_med s)) (td_mu (tp_med s)) eps PyTrue) (tp_amp s) (tp_orient s).
Definition harmonic_vertical_dipole (s : tvmd) (f eps : R) : mhalf :=
  MH (FD f (td_sigma (tv_med s)) (td_mu (tv_med s)) eps PyTrue) (tv_moment s) (V3 0 0 1) (tv_loc s).

(** ** electric dipole in a whole-space *)
Theorem C98_dipole_vector_potential :
  forall (s : tedip) (p : vec3) (f eps : R), 0 < f -> 0 < td_sigma (te_med s) -> 0 < td_mu (te_med s) -> p <> te_loc s ->
  is_vstep_off (fun t => te_A (te_at s t) p) f (ed_A (harmonic_dipole s f eps) p).
Proof. exact ed_A_step. Qed.
Theorem C98_dipole_electric_field :
  forall (s : tedip) (p : vec3) (f eps : R), 0 < f -> 0 < td_sigma (te_med s) -> 0 < td_mu (te_med s) -> p <> te_loc s ->
  is_vstep_off (fun t => te_E (te_at s t) p) f (ed_E (harmonic_dipole s f eps) p) /\
  is_vstep_off (fun t => te_J (te_at s t) p) f (ed_J (harmonic_dipole s f eps) p).
Proof. intros. split; [now apply ed_E_step|now apply ed_J_step]. Qed.
Theorem C98_dipole_magnetic_field :
  forall (s : tedip) (p : vec3) (f eps : R), 0 < f -> 0 < td_sigma (te_med s) -> 0 < td_mu (te_med s) -> p <> te_loc s ->
  is_vstep_off (fun t => te_H (te_at s t) p) f (ed_H (harmonic_dipole s f eps) p) /\
  is_vstep_off (fun t => te_B (te_at s t) p) f (ed_B (harmonic_dipole s f eps) p).
Proof. intros. split; [now apply ed_H_step|now apply ed_B_step]. Qed.
(** minus the time-derivative methods are the impulse responses *)
Theorem C98_dipole_impulse_response :
  forall (s : tedip) (p : vec3) (f eps : R), 0 < f -> 0 < td_sigma (te_med s) -> 0 < td_mu (te_med s) -> p <> te_loc s ->
  is_vfourier (fun t => vopp (te_dH (te_at s t) p)) f (ed_H (harmonic_dipole s f eps) p) /\
  is_vfourier (fun t => vopp (te_dB (te_at s t) p)) f (ed_B (harmonic_dipole s f eps) p).
Proof. exact ed_impulse. Qed.

(** ** plane wave, below the surface z = 0 at which it is set off *)
Theorem C98_plane_wave :
  forall (s : tpwave) (p : vec3) (f eps : R), 0 < f -> 0 < td_sigma (tp_med s) -> 0 < td_mu (tp_med s) -> vz p < 0 ->
  is_vfourier (fun t => tp_E (tp_at s t) p) f (pw_E (harmonic_wave s f eps) p) /\
  is_vfourier (fun t => tp_J (tp_at s t) p) f (pw_J (harmonic_wave s f eps) p) /\
  is_vfourier (fun t => tp_H (tp_at s t) p) f (pw_H (harmonic_wave s f eps) p) /\
  is_vfourier (fun t => tp_B (tp_at s t) p) f (pw_B (harmonic_wave s f eps) p).
Proof.
  intros s p f eps Hf Hs Hm Hz. split; [now apply pw_E_fourier|split; [now apply pw_J_fourier|split; [apply pw_H_fourier|apply pw_B_fourier]]]; try assumption; now apply Rlt_le.
Qed.
(** on the surface itself the magnetic field still is *)
Theorem C98_plane_wave_surface :
  forall (s : tpwave) (p : vec3) (f eps : R), 0 < f -> 0 < td_sigma (tp_med s) -> 0 < td_mu (tp_med s) -> vz p = 0 ->
  is_vfourier (fun t => tp_H (tp_at s t) p) f (pw_H (harmonic_wave s f eps) p) /\
  is_vfourier (fun t => tp_B (tp_at s t) p) f (pw_B (harmonic_wave s f eps) p).
Proof. intros s p f eps Hf Hs Hm Hz. split; [apply pw_H_fourier|apply pw_B_fourier]; try assumption; rewrite Hz; apply Rle_refl. Qed.

(** ** centre of a circular loop on a half-space *)
Theorem C98_loop :
  forall f sigma mu radius current turns, 0 < f -> 0 < sigma -> 0 < mu -> 0 < radius ->
  is_step_off (fun t => tloop_hz t sigma mu radius current turns) f (loop_hz f sigma mu radius current turns false) /\
  is_step_off (fun t => tloop_bz t sigma mu radius current turns) f (loop_bz f sigma mu radius current turns false) /\
  is_fourier (fun t => - tloop_dbz t sigma mu radius current turns) f (loop_bz f sigma mu radius current turns false).
Proof. intros. split; [now apply loop_hz_step|split; [now apply loop_bz_step|now apply loop_dbz_fourier]]. Qed.

(** ** vertical dipole on a half-space: the vertical component, whatever [iv] and [kv] compute.
    The horizontal components (transforms of products of Bessel functions) are outside C98. *)
Theorem C98_vertical_dipole_vertical_component :
  forall (s : tvmd) (x y z : R) (f eps : R) (iv kv : nat -> C -> C) (h : R -> vec3),
  0 < f -> 0 < td_sigma (tv_med s) -> 0 < td_mu (tv_med s) -> x <> vx (tv_loc s) \/ y <> vy (tv_loc s) ->
  (forall t, tv_H (tv_at s t) [x; y] = Ok (h t)) ->
  is_step_off (fun t => vz (h t)) f (cvz (mh_H iv kv (td_mu (tv_med s)) (harmonic_vertical_dipole s f eps) false (V3 x y z))).
Proof. intros. now apply vmd_step. Qed.

(** ** the transforms determine the harmonic answer *)
Theorem C98_unique :
  forall h f H H', is_fourier h f H -> is_fourier h f H' -> H = H'.
Proof. exact fourier_unique. Qed.

(** ** concrete cases *)
Example C98_dipole_case : let s := TED (TD 1 1 1) 1 1 (V3 1 0 0) (V3 0 0 0) in
  0 < td_sigma (te_med s) /\ 0 < td_mu (te_med s) /\ V3 0 2 0 <> te_loc s /\ vz (te_dH s (V3 0 2 0)) <> 0.
Proof. exact dipole_case. Qed.
Example C98_wave_case : let s := TPW (TD 1 1 1) 1 (V3 1 0 0) in
  0 < td_sigma (tp_med s) /\ 0 < td_mu (tp_med s) /\ vz (V3 0 0 (-1)) < 0 /\ vx (tp_E s (V3 0 0 (-1))) <> 0 /\ vy (tp_B s (V3 0 0 0)) <> 0.
Proof. exact wave_case. Qed.
Example C98_vertical_case : let s := TV (TD 1 1 1) 1 (V3 0 0 0) in
  (forall t, tv_H (tv_at s t) [1; 0] = Ok (vmd_H t 1 1 1 (1 - 0) (0 - 0))) /\ 1 <> vx (tv_loc s).
Proof. cbv zeta. split; [reflexivity|cbn; lra]. Qed.
Print Assumptions C98_dipole_vector_potential.
Print Assumptions C98_dipole_electric_field.
Print Assumptions C98_dipole_magnetic_field.
Print Assumptions C98_dipole_impulse_response.
Print Assumptions C98_plane_wave.
Print Assumptions C98_plane_wave_surface.
Print Assumptions C98_loop.
Print Assumptions C98_vertical_dipole_vertical_component.
Print Assumptions C98_unique.
