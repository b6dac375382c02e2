(** C84: evaluating the harmonic and transient sources on arrays of frequencies or times and arrays of points. *)
From Coq Require Import Reals List Arith Lia.
From Coquelicot Require Import Coquelicot.
From Verif Require Import Vec3 Cplx Numpy Model_Utils Model_FDEM Model_TDEM Model_Arrays Spec_Arrays Proof_Arrays2.
Import ListNotations.
Open Scope nat_scope.

(** C84: fdem electric dipole *)
Theorem C84_fdem_electric_dipole_arrays (s : edip) (freq xyz : nd R) (points : list nat) : shape xyz = points ++ [3] ->
  is_grid_of ccomponent (fun f p => ed_A (ed_at s f) p) freq xyz (ed_A_array s freq (XyzArray xyz)) /\
  is_grid_of ccomponent (fun f p => ed_E (ed_at s f) p) freq xyz (ed_E_array s freq (XyzArray xyz)) /\
  is_grid_of ccomponent (fun f p => ed_J (ed_at s f) p) freq xyz (ed_J_array s freq (XyzArray xyz)) /\
  is_grid_of ccomponent (fun f p => ed_H (ed_at s f) p) freq xyz (ed_H_array s freq (XyzArray xyz)) /\
  is_grid_of ccomponent (fun f p => ed_B (ed_at s f) p) freq xyz (ed_B_array s freq (XyzArray xyz)).
Proof. exact (ed_grids s freq xyz points). Qed.

(** C84: fdem magnetic dipole *)
Theorem C84_fdem_magnetic_dipole_arrays (s : mdip) (freq xyz : nd R) (points : list nat) : shape xyz = points ++ [3] ->
  is_grid_of ccomponent (fun f p => mf_A (mf_at s f) p) freq xyz (mf_A_array s freq (XyzArray xyz)) /\
  is_grid_of ccomponent (fun f p => mf_E (mf_at s f) p) freq xyz (mf_E_array s freq (XyzArray xyz)) /\
  is_grid_of ccomponent (fun f p => mf_J (mf_at s f) p) freq xyz (mf_J_array s freq (XyzArray xyz)) /\
  is_grid_of ccomponent (fun f p => mf_H (mf_at s f) p) freq xyz (mf_H_array s freq (XyzArray xyz)) /\
  is_grid_of ccomponent (fun f p => mf_B (mf_at s f) p) freq xyz (mf_B_array s freq (XyzArray xyz)).
Proof. exact (mf_grids s freq xyz points). Qed.

(** C84: fdem plane wave *)
Theorem C84_fdem_plane_wave_arrays (s : pwave) (freq xyz : nd R) (points : list nat) : shape xyz = points ++ [3] ->
  is_grid_of ccomponent (fun f p => pw_E (pw_at s f) p) freq xyz (pw_E_array s freq (XyzArray xyz)) /\
  is_grid_of ccomponent (fun f p => pw_J (pw_at s f) p) freq xyz (pw_J_array s freq (XyzArray xyz)) /\
  is_grid_of ccomponent (fun f p => pw_B (pw_at s f) p) freq xyz (pw_B_array s freq (XyzArray xyz)) /\
  is_grid_of ccomponent (fun f p => pw_H (pw_at s f) p) freq xyz (pw_H_array s freq (XyzArray xyz)).
Proof. exact (pw_grids s freq xyz points). Qed.

(** C84: tdem electric dipole *)
Theorem C84_tdem_electric_dipole_arrays (s : tedip) (time xyz : nd R) (points : list nat) : shape xyz = points ++ [3] ->
  is_grid_of component (fun f p => te_A (te_at s f) p) time xyz (te_A_array s time (XyzArray xyz)) /\
  is_grid_of component (fun f p => te_E (te_at s f) p) time xyz (te_E_array s time (XyzArray xyz)) /\
  is_grid_of component (fun f p => te_J (te_at s f) p) time xyz (te_J_array s time (XyzArray xyz)) /\
  is_grid_of component (fun f p => te_H (te_at s f) p) time xyz (te_H_array s time (XyzArray xyz)) /\
  is_grid_of component (fun f p => te_dH (te_at s f) p) time xyz (te_dH_array s time (XyzArray xyz)) /\
  is_grid_of component (fun f p => te_B (te_at s f) p) time xyz (te_B_array s time (XyzArray xyz)) /\
  is_grid_of component (fun f p => te_dB (te_at s f) p) time xyz (te_dB_array s time (XyzArray xyz)).
Proof. exact (te_grids s time xyz points). Qed.

(** C84: tdem plane wave *)
Theorem C84_tdem_plane_wave_arrays (s : tpwave) (time xyz : nd R) (points : list nat) : shape xyz = points ++ [3] ->
  is_grid_of component (fun f p => tp_E (tp_at s f) p) time xyz (tp_E_array s time (XyzArray xyz)) /\
  is_grid_of component (fun f p => tp_J (tp_at s f) p) time xyz (tp_J_array s time (XyzArray xyz)) /\
  is_grid_of component (fun f p => tp_B (tp_at s f) p) time xyz (tp_B_array s time (XyzArray xyz)) /\
  is_grid_of component (fun f p => tp_H (tp_at s f) p) time xyz (tp_H_array s time (XyzArray xyz)).
Proof. exact (tp_grids s time xyz points). Qed.

(** C84: an array whose last axis is not 3 is rejected by every one of them *)
Theorem C84_wrong_width_is_rejected (xyz : nd R) (points : list nat) (k : nat) : shape xyz = points ++ [k] -> k <> 3 ->
  (forall (s : edip) freq, ed_A_array s freq (XyzArray xyz) = Raise ValueError /\ ed_E_array s freq (XyzArray xyz) = Raise ValueError /\ ed_J_array s freq (XyzArray xyz) = Raise ValueError /\ ed_H_array s freq (XyzArray xyz) = Raise ValueError /\ ed_B_array s freq (XyzArray xyz) = Raise ValueError) /\
  (forall (s : mdip) freq, mf_A_array s freq (XyzArray xyz) = Raise ValueError /\ mf_E_array s freq (XyzArray xyz) = Raise ValueError /\ mf_J_array s freq (XyzArray xyz) = Raise ValueError /\ mf_H_array s freq (XyzArray xyz) = Raise ValueError /\ mf_B_array s freq (XyzArray xyz) = Raise ValueError) /\
  (forall (s : pwave) freq, pw_E_array s freq (XyzArray xyz) = Raise ValueError /\ pw_J_array s freq (XyzArray xyz) = Raise ValueError /\ pw_B_array s freq (XyzArray xyz) = Raise ValueError /\ pw_H_array s freq (XyzArray xyz) = Raise ValueError) /\
  (forall (s : tedip) time, te_A_array s time (XyzArray xyz) = Raise ValueError /\ te_E_array s time (XyzArray xyz) = Raise ValueError /\ te_J_array s time (XyzArray xyz) = Raise ValueError /\ te_H_array s time (XyzArray xyz) = Raise ValueError /\ te_dH_array s time (XyzArray xyz) = Raise ValueError /\ te_B_array s time (XyzArray xyz) = Raise ValueError /\ te_dB_array s time (XyzArray xyz) = Raise ValueError) /\
  (forall (s : tpwave) time, tp_E_array s time (XyzArray xyz) = Raise ValueError /\ tp_J_array s time (XyzArray xyz) = Raise ValueError /\ tp_B_array s time (XyzArray xyz) = Raise ValueError /\ tp_H_array s time (XyzArray xyz) = Raise ValueError).
Proof. exact (all_reject xyz points k). Qed.

(** C84: a tuple of three coordinate arrays is the stacked array *)
Theorem C84_tuples_are_stacked (a b c : nd R) : shape b = shape a -> shape c = shape a ->
  exists xyz, shape xyz = shape a ++ [3] /\ (forall j, vec_at xyz j = V3 (get a j) (get b j) (get c j)) /\
  (forall (s : edip) freq, ed_A_array s freq (XyzTuple [a; b; c]) = ed_A_array s freq (XyzArray xyz) /\ ed_E_array s freq (XyzTuple [a; b; c]) = ed_E_array s freq (XyzArray xyz) /\ ed_J_array s freq (XyzTuple [a; b; c]) = ed_J_array s freq (XyzArray xyz) /\ ed_H_array s freq (XyzTuple [a; b; c]) = ed_H_array s freq (XyzArray xyz) /\ ed_B_array s freq (XyzTuple [a; b; c]) = ed_B_array s freq (XyzArray xyz)) /\
  (forall (s : mdip) freq, mf_A_array s freq (XyzTuple [a; b; c]) = mf_A_array s freq (XyzArray xyz) /\ mf_E_array s freq (XyzTuple [a; b; c]) = mf_E_array s freq (XyzArray xyz) /\ mf_J_array s freq (XyzTuple [a; b; c]) = mf_J_array s freq (XyzArray xyz) /\ mf_H_array s freq (XyzTuple [a; b; c]) = mf_H_array s freq (XyzArray xyz) /\ mf_B_array s freq (XyzTuple [a; b; c]) = mf_B_array s freq (XyzArray xyz)) /\
  (forall (s : pwave) freq, pw_E_array s freq (XyzTuple [a; b; c]) = pw_E_array s freq (XyzArray xyz) /\ pw_J_array s freq (XyzTuple [a; b; c]) = pw_J_array s freq (XyzArray xyz) /\ pw_B_array s freq (XyzTuple [a; b; c]) = pw_B_array s freq (XyzArray xyz) /\ pw_H_array s freq (XyzTuple [a; b; c]) = pw_H_array s freq (XyzArray xyz)) /\
  (forall (s : tedip) time, te_A_array s time (XyzTuple [a; b; c]) = te_A_array s time (XyzArray xyz) /\ te_E_array s time (XyzTuple [a; b; c]) = te_E_array s time (XyzArray xyz) /\ te_J_array s time (XyzTuple [a; b; c]) = te_J_array s time (XyzArray xyz) /\ te_H_array s time (XyzTuple [a; b; c]) = te_H_array s time (XyzArray xyz) /\ te_dH_array s time (XyzTuple [a; b; c]) = te_dH_array s time (XyzArray xyz) /\ te_B_array s time (XyzTuple [a; b; c]) = te_B_array s time (XyzArray xyz) /\ te_dB_array s time (XyzTuple [a; b; c]) = te_dB_array s time (XyzArray xyz)) /\
  (forall (s : tpwave) time, tp_E_array s time (XyzTuple [a; b; c]) = tp_E_array s time (XyzArray xyz) /\ tp_J_array s time (XyzTuple [a; b; c]) = tp_J_array s time (XyzArray xyz) /\ tp_B_array s time (XyzTuple [a; b; c]) = tp_B_array s time (XyzArray xyz) /\ tp_H_array s time (XyzTuple [a; b; c]) = tp_H_array s time (XyzArray xyz)).
Proof. exact (all_tuples a b c). Qed.

(** ** Concrete cases *)
(** two frequencies, a 1 x 2 array of points: entry [1, 0, 1, 2] exists *)
Example C84_arrays_witness : let xyz := ND [1; 2; 3] (fun ix => INR (last ix 0)) in
  shape xyz = [1; 2] ++ [3] /\ index_of (shape (of_list 0%R [1%R; 2%R])) [1] /\ index_of (removelast (shape xyz)) [0; 1].
Proof. repeat split; repeat constructor. Qed.
(** on it the electric field is an array of shape (2, 1, 2, 3) *)
Example C84_arrays_shape (s : edip) : let xyz := ND [1; 2; 3] (fun ix => INR (last ix 0)) in
  exists e, ed_E_array s (of_list 0%R [1%R; 2%R]) (XyzArray xyz) = Ok e /\ shape e = [2; 1; 2; 3] /\
    get e [1; 0; 1; 2] = cvz (ed_E (ed_at s 2) (V3 0 1 2)).
Proof.
  intros xyz. destruct (C84_fdem_electric_dipole_arrays s (of_list 0%R [1%R; 2%R]) xyz [1; 2] eq_refl) as (_ & (e & H & S & G) & _).
  exists e. split; [exact H|]. split; [exact S|].
  specialize (G [1] [0; 1] 2). cbn -[ed_E INR] in G. rewrite G; [|repeat constructor ..]. reflexivity.
Qed.
Print Assumptions C84_fdem_electric_dipole_arrays.
Print Assumptions C84_fdem_magnetic_dipole_arrays.
Print Assumptions C84_fdem_plane_wave_arrays.
Print Assumptions C84_tdem_electric_dipole_arrays.
Print Assumptions C84_tdem_plane_wave_arrays.
Print Assumptions C84_wrong_width_is_rejected.
Print Assumptions C84_tuples_are_stacked.
