(** Properties of the layered reflection coefficient kernels. *)
From Coq Require Import Reals List ZArith Lia Lra.
From Coquelicot Require Import Coquelicot.
From Verif Require Import Cplx Numpy Model_RTE Spec_RTE Spec_RTE2 Proof_RTE2 Proof_RTE5 Proof_RTE7 Proof_RTE8 Proof_RTE9 Proof_RTE10 Proof_RTE11.
Import ListNotations.
Open Scope R_scope.

(** C18: on arrays of matching shapes the compiled rTE_forward terminates without undefined
    behaviour, writes every output cell once, and returns the numpy array (computed with
    mu_0 = 4 pi 10^-7, the C++ value). *)
Theorem C18_compiled_is_numpy fuel frequencies lamb sigma mu thicknesses :
  a_cols sigma = length frequencies -> a_rows sigma = (length thicknesses + 1)%nat ->
  a_rows mu = a_rows sigma -> a_cols mu = a_cols sigma -> frequencies <> [] -> lamb <> [] ->
  (Z.of_nat (length frequencies * a_rows sigma) < 2 ^ 64)%Z -> (Z.of_nat (length frequencies * length lamb) < 2 ^ 64)%Z ->
  (a_rows sigma + length frequencies + length lamb <= fuel)%nat ->
  exists out, pyx_rTE_forward fuel frequencies lamb sigma mu thicknesses = Ok (Some out) /\
    length out = (length frequencies * length lamb)%nat /\
    forall f i, (f < length frequencies)%nat -> (i < length lamb)%nat ->
      from_F (length frequencies) (length lamb) out f i =
      Some (nth i (nth f (py_rTE_forward (4 / 10 ^ 7 * PI) frequencies lamb sigma mu thicknesses) []) (RtoC 0)).
Proof. exact (C18_array_lemma fuel frequencies lamb sigma mu thicknesses). Qed.

(** C18: a different mu_0 in the two versions gives different results for every ground. *)
Theorem C18_other_mu_0_other_result mu_0 mu_0' f lamb sigma mu thicknesses :
  0 < mu_0 -> 0 < mu_0' -> mu_0 <> mu_0' -> 0 < f -> 0 < lamb -> ground f lamb sigma mu thicknesses ->
  py_rTE mu_0 f lamb sigma mu thicknesses <> py_rTE mu_0' f lamb sigma mu thicknesses.
Proof. exact (mu0_matters mu_0 mu_0' f lamb sigma mu thicknesses). Qed.

(** C18, C20: the compiled wrapper rejects every other shape. *)
Theorem C18_wrong_shapes_are_rejected fuel frequencies lamb sigma mu thicknesses :
  (a_cols sigma <> length frequencies \/ a_rows sigma <> (length thicknesses + 1)%nat \/ a_rows mu <> a_rows sigma \/ a_cols mu <> a_cols sigma) ->
  pyx_rTE_forward fuel frequencies lamb sigma mu thicknesses = Raise ValueError /\
  pyx_rTE_gradient fuel frequencies lamb sigma mu thicknesses = Raise ValueError.
Proof. exact (shape_lemma fuel frequencies lamb sigma mu thicknesses). Qed.

(** C18: with no frequency the compiled version raises, the numpy version returns an empty array. *)
Theorem C18_empty_frequencies_refuted fuel mu_0 lamb sigma mu thicknesses :
  a_cols sigma = 0%nat -> a_rows sigma = (length thicknesses + 1)%nat -> a_rows mu = a_rows sigma -> a_cols mu = 0%nat ->
  pyx_rTE_forward fuel [] lamb sigma mu thicknesses = Raise IndexError /\ py_rTE_forward mu_0 [] lamb sigma mu thicknesses = [].
Proof. exact (empty_lemma fuel mu_0 lamb sigma mu thicknesses). Qed.

(** C19: the three arrays of rTE_gradient give the derivative of rTE_forward along every
    differentiable curve of layer parameters through a ground. *)
Theorem C19_gradient_is_the_derivative mu_0 f lamb sigma mu thicknesses x sigma' mu' thicknesses' :
  0 < mu_0 -> 0 < f -> 0 < lamb ->
  is_curve sigma x sigma' -> is_curve mu x mu' -> is_rcurve thicknesses x thicknesses' ->
  ground f lamb (sigma x) (mu x) (thicknesses x) ->
  let '(dsigma, dh, dmu) := py_rTE_gradient mu_0 f lamb (sigma x) (mu x) (thicknesses x) in
  is_cderive (fun t => py_rTE mu_0 f lamb (sigma t) (mu t) (thicknesses t)) x
    (csum2 dsigma sigma' + csum2 dh (map RtoC thicknesses') + csum2 dmu mu')%C.
Proof.
  intros A B D E F G H. pose proof (C19_lemma mu_0 f lamb sigma mu thicknesses x sigma' mu' thicknesses' A B D E F G H) as K.
  destruct (py_rTE_gradient mu_0 f lamb (sigma x) (mu x) (thicknesses x)) as [[dsigma dh] dmu]. exact K.
Qed.

(** C19: one entry per layer in dsigma and dmu, one per interface in dh *)
Theorem C19_gradient_shapes mu_0 f lamb sigma mu thicknesses :
  length sigma = (length thicknesses + 1)%nat -> length mu = (length thicknesses + 1)%nat ->
  let '(dsigma, dh, dmu) := py_rTE_gradient mu_0 f lamb sigma mu thicknesses in
  length dsigma = length sigma /\ length dh = length thicknesses /\ length dmu = length mu.
Proof. exact (gradient_shapes mu_0 f lamb sigma mu thicknesses). Qed.

(** C20 *)
Theorem C20_compiled_gradient_is_numpy fuel frequencies lamb sigma mu thicknesses :
  a_cols sigma = length frequencies -> a_rows sigma = (length thicknesses + 1)%nat ->
  a_rows mu = a_rows sigma -> a_cols mu = a_cols sigma -> frequencies <> [] -> lamb <> [] ->
  (Z.of_nat (a_rows sigma * (length frequencies * length lamb)) < 2 ^ 64)%Z ->
  (a_rows sigma + length frequencies + length lamb <= fuel)%nat ->
  exists ds dh dm, pyx_rTE_gradient fuel frequencies lamb sigma mu thicknesses = Ok (Some (ds, dh, dm)) /\
    (length ds = a_rows sigma * (length frequencies * length lamb))%nat /\
    (length dh = length thicknesses * (length frequencies * length lamb))%nat /\
    (length dm = a_rows sigma * (length frequencies * length lamb))%nat /\
    forall f i, (f < length frequencies)%nat -> (i < length lamb)%nat ->
      let G := py_rTE_gradient (4 / 10 ^ 7 * PI) (rget frequencies f) (rget lamb i) (column sigma f) (column mu f) thicknesses in
      (forall l, (l < a_rows sigma)%nat -> from_F3 (a_rows sigma) (length frequencies) ds l f i = Some (cget (fst (fst G)) l)) /\
      (forall l, (l < length thicknesses)%nat -> from_F3 (length thicknesses) (length frequencies) dh l f i = Some (cget (snd (fst G)) l)) /\
      (forall l, (l < a_rows sigma)%nat -> from_F3 (a_rows sigma) (length frequencies) dm l f i = Some (cget (snd G) l)).
Proof. exact (C20_lemma fuel frequencies lamb sigma mu thicknesses). Qed.

(** C21: a layer cut in two *)
Theorem C21_split_layer mu_0 f lamb s1 s s2 m1 m m2 t1 h1 h2 t2 :
  0 < f -> length s1 = length t1 -> length m1 = length t1 -> 0 <= h1 -> 0 <= h2 ->
  ground f lamb (s1 ++ s :: s2) (m1 ++ m :: m2) (t1 ++ (h1 + h2) :: t2) ->
  py_rTE mu_0 f lamb (s1 ++ s :: s :: s2) (m1 ++ m :: m :: m2) (t1 ++ h1 :: h2 :: t2) =
  py_rTE mu_0 f lamb (s1 ++ s :: s2) (m1 ++ m :: m2) (t1 ++ (h1 + h2) :: t2).
Proof. exact (C21_split_lemma mu_0 f lamb s1 s s2 m1 m m2 t1 h1 h2 t2). Qed.

(** C21: an interface inside the basement *)
Theorem C21_cut_basement mu_0 f lamb s1 s m1 m t1 h : 0 < f -> 0 <= h ->
  ground f lamb (s1 ++ [s]) (m1 ++ [m]) t1 ->
  py_rTE mu_0 f lamb (s1 ++ [s; s]) (m1 ++ [m; m]) (t1 ++ [h]) = py_rTE mu_0 f lamb (s1 ++ [s]) (m1 ++ [m]) t1.
Proof. exact (C21_basement_lemma mu_0 f lamb s1 s m1 m t1 h). Qed.

(** C21: a layer of zero thickness *)
Theorem C21_zero_thickness mu_0 f lamb s1 s s2 m1 m m2 t1 t2 :
  0 < f -> length s1 = length t1 -> length m1 = length t1 ->
  layer_ok (2 * PI * f) lamb s m -> ground f lamb (s1 ++ s2) (m1 ++ m2) (t1 ++ t2) ->
  py_rTE mu_0 f lamb (s1 ++ s :: s2) (m1 ++ m :: m2) (t1 ++ 0 :: t2) = py_rTE mu_0 f lamb (s1 ++ s2) (m1 ++ m2) (t1 ++ t2).
Proof. exact (C21_thin_lemma mu_0 f lamb s1 s s2 m1 m m2 t1 t2). Qed.

(** C22 *)
Theorem C22_passive mu_0 f lamb sigma mu thicknesses : 0 < mu_0 -> 0 < f -> 0 < lamb ->
  slow_ground f lamb sigma mu thicknesses -> Cmod (py_rTE mu_0 f lamb sigma mu thicknesses) < 1.
Proof. exact (C22_lemma mu_0 f lamb sigma mu thicknesses). Qed.
(** C22: every real conductivity >= 0 and permeability > 0 is covered *)
Theorem C22_quasistatic_is_covered f lamb sigma mu thicknesses : 0 < lamb ->
  List.Forall (fun s => 0 <= s) sigma -> List.Forall (fun m => 0 < m) mu -> List.Forall (fun h => 0 <= h) thicknesses ->
  length sigma = (length thicknesses + 1)%nat -> length mu = (length thicknesses + 1)%nat ->
  slow_ground f lamb (map RtoC sigma) (map RtoC mu) thicknesses.
Proof. exact (quasistatic_lemma f lamb sigma mu thicknesses). Qed.

(** C93: the layered boundary-value problem has exactly one reflection coefficient: the returned one *)
Theorem C93_reflection_coefficient mu_0 f lamb sigma mu thicknesses r : 0 < mu_0 -> 0 < f -> 0 < lamb ->
  ground f lamb sigma mu thicknesses ->
  (reflects mu_0 (2 * PI * f) lamb sigma mu thicknesses r <-> r = py_rTE mu_0 f lamb sigma mu thicknesses).
Proof. exact (C93_lemma mu_0 f lamb sigma mu thicknesses r). Qed.
(** C93: a layer of air on top moves the ground down: the reflection loses e^{- 2 lamb h} *)
Theorem C93_air_on_top mu_0 f lamb h sigma mu thicknesses : 0 < mu_0 -> 0 < f -> 0 < lamb -> 0 <= h ->
  ground f lamb sigma mu thicknesses ->
  py_rTE mu_0 f lamb (RtoC 0 :: sigma) (RtoC mu_0 :: mu) (h :: thicknesses) =
  (RtoC (exp (- 2 * lamb * h)) * py_rTE mu_0 f lamb sigma mu thicknesses)%C.
Proof. exact (C93_air_lemma mu_0 f lamb h sigma mu thicknesses). Qed.
(** C93: air alone reflects nothing *)
Theorem C93_air_only mu_0 f lamb : 0 < mu_0 -> 0 < f -> 0 < lamb -> py_rTE mu_0 f lamb [RtoC 0] [RtoC mu_0] [] = RtoC 0.
Proof. exact (C93_nothing_lemma mu_0 f lamb). Qed.

(** ** Concrete cases *)
(** an air layer over a conductive, magnetic basement *)
Example ground_exists : ground 1 1 [RtoC 0; RtoC 1] [RtoC 1; RtoC 2] [3] /\ slow_ground 1 1 [RtoC 0; RtoC 1] [RtoC 1; RtoC 2] [3].
Proof.
  assert (S : slow_ground 1 1 [RtoC 0; RtoC 1] [RtoC 1; RtoC 2] [3]).
  { apply (quasistatic_lemma 1 1 [0; 1] [1; 2] [3]); try lra; try reflexivity; repeat constructor; lra. }
  split; [|exact S]. apply slow_stack. exact S.
Qed.
(** a moving interface and a conductivity that changes *)
Example curves_exist : is_curve (fun t => [RtoC 0; RtoC (1 + t)]) 0 [RtoC 0; RtoC 1] /\ is_rcurve (fun t => [3 + 2 * t]) 0 [2].
Proof. exact curves_lemma. Qed.
Example compiled_sizes_exist : exists sigma mu : arr2, a_cols sigma = length [1; 10] /\ a_rows sigma = (length [3; 5] + 1)%nat /\ a_rows mu = a_rows sigma /\ a_cols mu = a_cols sigma /\
  (Z.of_nat (a_rows sigma * (length [1; 10] * length [1])) < 2 ^ 64)%Z.
Proof. exists (A2 3 2 (fun _ _ => RtoC 1)), (A2 3 2 (fun _ _ => RtoC 1)). cbn. repeat split; lia. Qed.
Print Assumptions C18_compiled_is_numpy.
Print Assumptions C18_other_mu_0_other_result.
Print Assumptions C18_wrong_shapes_are_rejected.
Print Assumptions C18_empty_frequencies_refuted.
Print Assumptions C19_gradient_is_the_derivative.
Print Assumptions C19_gradient_shapes.
Print Assumptions C20_compiled_gradient_is_numpy.
Print Assumptions C21_split_layer.
Print Assumptions C21_cut_basement.
Print Assumptions C21_zero_thickness.
Print Assumptions C22_passive.
Print Assumptions C22_quasistatic_is_covered.
Print Assumptions C93_reflection_coefficient.
Print Assumptions C93_air_on_top.
Print Assumptions C93_air_only.
