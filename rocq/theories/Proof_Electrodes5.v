(** Examples for C113, and that [gives] is a function. *)
From Coq Require Import Reals Lra Lia List Bool Arith ZArith String.
From Verif Require Import Numpy PyVal Spec_Setters Model_Setters Proof_Setters Proof_Setters2 Proof_Setters3 Proof_Setters4 Proof_Setters5 Proof_Setters6.
From Verif Require Import Spec_Contracts Proof_Contracts Model_Construct Spec_Construct Proof_Construct Model_Electrodes Spec_Electrodes Proof_Electrodes Proof_Electrodes2 Proof_Electrodes3 Proof_Electrodes4.
Import ListNotations.
Open Scope string_scope.
Open Scope R_scope.

Lemma writes_unique e pos kw a v v' : writes e pos kw a v -> writes e pos kw a v' -> v = v'.
Proof. rewrite !writes_get. congruence. Qed.
Lemma gives_unique e pos kw a v v' : gives e pos kw a v -> gives e pos kw a v' -> v = v'.
Proof.
  intros [[W N]|[D H]] [[W' N']|[D' H']].
  - now apply (writes_unique e pos kw a).
  - destruct H' as [H'|[L H']]; [now apply H' in W|]. exfalso. apply N. split; [exact L|]. now apply (writes_unique e pos kw a).
  - destruct H as [H|[L H]]; [now apply H in W'|]. exfalso. apply N'. split; [exact L|]. now apply (writes_unique e pos kw a).
  - clear H H'. unfold number, point3 in *. destruct e; cbn in D, D';
      repeat match goal with X : _ \/ _ |- _ => destruct X as [X|X] | X : False |- _ => destruct X end; congruence.
Qed.
Ltac ecall := unfold electrode_call, bind_args, bind at 1; cbn -[init_pcws init_hs init_dhs].
Lemma half_example py : exists o,
  genuine [PNum (Fin 100)] [("location", PArr (vec3 (Fin 3) (Fin 0) (Fin (-2))))] /\
  electrode_call py PointHalf [PNum (Fin 100)] [("location", PArr (vec3 (Fin 3) (Fin 0) (Fin (-2))))] = (o, Ok tt) /\
  reads (PointCurrentHalfSpace py) o "current" = Ok (AFlt (Fin 1)).
Proof.
  assert (G : genuine [PNum (Fin 100)] [("location", PArr (vec3 (Fin 3) (Fin 0) (Fin (-2))))]) by (split; repeat constructor).
  eexists. split; [exact G|]. split; [ecall; ev|reflexivity].
Qed.
Lemma dipole_example py : exists o,
  electrode_call py DipoleHalf [PNum (Fin 100)] [("current", PNum (Fin 2))] = (o, Ok tt) /\
  reads (DipoleHalfSpace py) o "location_a" = Ok (AArr (vec3 (Fin (-1)) (Fin 0) (Fin 0))) /\
  reads (DipoleHalfSpace py) o "location_b" = Ok (AArr (vec3 (Fin 1) (Fin 0) (Fin 0))).
Proof. eexists. split; [ecall; ev|split; reflexivity]. Qed.
Lemma refused_examples py :
  snd (electrode_call py PointHalf [PNum (Fin 100); PNum (Fin 1); PArr (vec3 (Fin 0) (Fin 0) (Fin 1))] []) = Raise ValueError /\
  snd (electrode_call py PointHalf [PNum (Fin 0)] []) = Raise ZeroDivisionError /\
  snd (electrode_call py DipoleHalf [PNum (Fin 100)] [("location", PNone)]) = Raise TypeError.
Proof. split; [ecall; ev|]. split; [ecall; ev|reflexivity]. Qed.
Lemma zero_rho_example py : exists o, electrode_call py PointWhole [PArr (mkarr [] [Fin 0])] [] = (o, Ok tt) /\
  reads (PointCurrentWholeSpace py) o "sigma" = Ok (AFlt PInf).
Proof. eexists. split; [ecall; ev; unfold sgninf; rcompute|reflexivity]. Qed.
Lemma locations_example py n (d : list fl) : List.length d = (3 * n)%nat ->
  exists o, electrode_call py PointWhole [PNum (Fin 1)] [("location", PArr (mkarr [n; 3%nat] d))] = (o, Ok tt) /\
  (n = 0%nat -> reads (PointCurrentWholeSpace py) o "location" = Raise IndexError) /\
  reads (PointCurrentWholeSpace py) o "n_segments" = Ok (AInt (Z.of_nat n - 1)).
Proof. intros L. eexists. split; [ecall; ev|]. split; [intros ->; reflexivity|reflexivity]. Qed.
