(** How far the layered reflection coefficient sees: ground of real conductivities and of the permeability of the air. *)
From Coq Require Import String Reals List Lra Lia.
From Coquelicot Require Import Coquelicot.
From Verif Require Import Vec3 Cplx Numpy Model_RTE Model_Layered Spec_FDEM Spec_Layered Spec_Hankel Spec_Depth Proof_Layered3 Proof_RTE13 Proof_Depth.
Import ListNotations.
Open Scope R_scope.

(** C115: two grounds that agree down to a depth have reflection coefficients that differ by at most e^{-2 lamb depth} *)
Theorem C115_below_is_hidden mu_0 f lamb s_top t_top s1 t1 s2 t2 : 0 < mu_0 -> 0 < f -> 0 < lamb ->
  pack s_top t_top -> earth s1 t1 -> earth s2 t2 ->
  Cmod (py_rTE mu_0 f lamb (conductivities (s_top ++ s1)) (nonmagnetic mu_0 (s_top ++ s1)) (t_top ++ t1)
      - py_rTE mu_0 f lamb (conductivities (s_top ++ s2)) (nonmagnetic mu_0 (s_top ++ s2)) (t_top ++ t2))%C <=
  exp (- 2 * lamb * depth t_top).
Proof. exact (C115_hidden_lemma mu_0 f lamb s_top t_top s1 t1 s2 t2). Qed.
(** C115: what covers a ground damps every difference in it by e^{-2 lamb depth} or more *)
Theorem C115_cover_damps mu_0 f lamb s_top t_top s1 t1 s2 t2 : 0 < mu_0 -> 0 < f -> 0 < lamb ->
  pack s_top t_top -> earth s1 t1 -> earth s2 t2 ->
  Cmod (py_rTE mu_0 f lamb (conductivities (s_top ++ s1)) (nonmagnetic mu_0 (s_top ++ s1)) (t_top ++ t1)
      - py_rTE mu_0 f lamb (conductivities (s_top ++ s2)) (nonmagnetic mu_0 (s_top ++ s2)) (t_top ++ t2))%C <=
  exp (- 2 * lamb * depth t_top) *
  Cmod (py_rTE mu_0 f lamb (conductivities s1) (nonmagnetic mu_0 s1) t1
      - py_rTE mu_0 f lamb (conductivities s2) (nonmagnetic mu_0 s2) t2)%C.
Proof. exact (C115_damps_lemma mu_0 f lamb s_top t_top s1 t1 s2 t2). Qed.
(** C115: a layer thick against the wavelength is a basement: ending the ground inside it costs at most e^{-2 lamb depth of its bottom} *)
Theorem C115_thick_layer_is_basement mu_0 f lamb s_top t_top s h s_below t_below : 0 < mu_0 -> 0 < f -> 0 < lamb ->
  pack s_top t_top -> earth (s :: s_below) (h :: t_below) ->
  Cmod (py_rTE mu_0 f lamb (conductivities (s_top ++ s :: s_below)) (nonmagnetic mu_0 (s_top ++ s :: s_below)) (t_top ++ h :: t_below)
      - py_rTE mu_0 f lamb (conductivities (s_top ++ [s])) (nonmagnetic mu_0 (s_top ++ [s])) t_top)%C <=
  exp (- 2 * lamb * (depth t_top + h)).
Proof. intros A B D. exact (C115_cover_lemma mu_0 f lamb s_top t_top s s_below t_below A B D h). Qed.
(** C115: the reflection coefficient lies in the lower half of the disc whose diameter joins -1 (perfect conductor) to 0 (air) *)
Theorem C115_half_disc mu_0 f lamb sigma thicknesses : 0 < mu_0 -> 0 < f -> 0 < lamb -> earth sigma thicknesses ->
  let r := py_rTE mu_0 f lamb (conductivities sigma) (nonmagnetic mu_0 sigma) thicknesses in
  Cmod (r - RtoC (- / 2))%C <= / 2 /\ Im r <= 0.
Proof. exact (C115_half_disc_lemma mu_0 f lamb sigma thicknesses). Qed.
(** C115: weak induction: the reflection is at most omega mu_0 sigma_max / (2 lamb)^2 *)
Theorem C115_weak_induction mu_0 f lamb sigma thicknesses sigma_max : 0 < mu_0 -> 0 < f -> 0 < lamb -> earth sigma thicknesses ->
  (forall s, In s sigma -> s <= sigma_max) ->
  Cmod (py_rTE mu_0 f lamb (conductivities sigma) (nonmagnetic mu_0 sigma) thicknesses) <= 2 * PI * f * mu_0 * sigma_max / (2 * lamb) ^ 2.
Proof. exact (C115_weak_lemma mu_0 f lamb sigma thicknesses sigma_max). Qed.
(** C115: strong induction: a good conductor mirrors: the coefficient is within 2 lamb / sqrt(omega mu_0 sigma), plus what comes
    through the top layer, of -1 *)
Theorem C115_strong_induction mu_0 f lamb s : 0 < mu_0 -> 0 < f -> 0 < lamb -> 0 < s ->
  Cmod (py_rTE mu_0 f lamb (conductivities [s]) (nonmagnetic mu_0 [s]) [] - RtoC (- 1))%C <= 2 * lamb / sqrt (2 * PI * f * mu_0 * s) /\
  forall h s_below t_below, earth (s :: s_below) (h :: t_below) ->
  Cmod (py_rTE mu_0 f lamb (conductivities (s :: s_below)) (nonmagnetic mu_0 (s :: s_below)) (h :: t_below) - RtoC (- 1))%C
  <= 2 * lamb / sqrt (2 * PI * f * mu_0 * s) + exp (- 2 * lamb * h).
Proof. exact (C115_strong_lemma mu_0 f lamb s). Qed.

(** C115: the secondary field of the layered dipole: changing the ground below a depth changes every component, at every
    receiver and frequency and with any Hankel filter, by no more than a full reflection at that depth would give *)
Theorem C115_field_does_not_see_deep mu_0 flt a b xyz field ra rb f k s_top t_top sa ta sb tb :
  consistent a -> consistent b -> whole flt -> (forall x, In x (hf_base flt) -> 0 < x) -> field <> "total"%string ->
  same_survey a b ->
  magnetic_field mu_0 flt a xyz field = Ok ra -> magnetic_field mu_0 flt b xyz field = Ok rb ->
  (f < n_frequency a)%nat -> (k < length xyz)%nat -> beside (nth k xyz vzero) (ly_location a) ->
  0 < mu_0 -> 0 < nth f (ly_frequency a) 0 -> pack s_top t_top -> earth sa ta -> earth sb tb ->
  over mu_0 a (s_top ++ sa) (t_top ++ ta) -> over mu_0 b (s_top ++ sb) (t_top ++ tb) ->
  let p := nth k xyz vzero in let q := ly_location a in let o := ly_orientation a in let rho := horizontally q p in
  exists ha hb, entry ra f k = Some ha /\ entry rb f k = Some hb /\ forall e,
    Cmod (cvdot ha e - cvdot hb e)%C <= Rabs (ly_moment a) / (4 * PI * rho) *
      rsum (length (hf_base flt)) (fun i => let la := nth i (hf_base flt) 0 / rho in
        exp (- la * (vz p + vz q + 2 * depth t_top)) *
        (Rabs (vdot e (kernel0 o (vx p - vx q) (vy p - vy q) la) * nth i (hf_j0 flt) 0)
         + Rabs (vdot e (kernel1 o (vx p - vx q) (vy p - vy q) la) * nth i (hf_j1 flt) 0))).
Proof. exact (depth_field_lemma mu_0 flt a b xyz field ra rb f k s_top t_top sa ta sb tb). Qed.

(** ** Concrete cases *)
(** soil over air over two different basements *)
Example earth_exists : pack [1; 0] [2; 3] /\ earth [5] [] /\ earth [0; 7] [4] /\ depth [2; 3] = 5.
Proof.
  unfold pack, earth, depth. cbn [fold_right length In]. repeat split; try lra; intros x H; repeat (destruct H as [<-|H]; [lra|]); destruct H.
Qed.
(** the two reflection coefficients are not the same *)
Example not_the_same : py_rTE 1 1 1 (conductivities [5]) (nonmagnetic 1 [5]) [] <> py_rTE 1 1 1 (conductivities [0]) (nonmagnetic 1 [0]) [].
Proof. exact differ_example. Qed.
(** two surveys over grounds that agree down to depth 3, a receiver and a one-node filter *)
Definition survey (s : R) : layered :=
  LY [1; 10] [3] (P1 [RtoC 1; RtoC s]) (P1 [RtoC 1; RtoC 1]) (P1 [RtoC 1; RtoC 1]) true (V3 0 0 1) (V3 0 0 1) 1.
Example field_exists : consistent (survey 2) /\ consistent (survey 5) /\ same_survey (survey 2) (survey 5) /\
  over 1 (survey 2) ([1] ++ [2]) ([3] ++ []) /\ over 1 (survey 5) ([1] ++ [5]) ([3] ++ []) /\
  (forall s, exists r, magnetic_field 1 (HF [1] [2] [3]) (survey s) [V3 3 4 0] "secondary" = Ok r) /\
  beside (V3 3 4 0) (ly_location (survey 2)).
Proof.
  assert (Co : forall s, consistent (survey s)) by (intros s; repeat split). split; [apply Co|]. split; [apply Co|]. split; [repeat split|].
  split; [repeat split|]. split; [repeat split|]. split; [|left; cbn; lra].
  intros s. destruct (consistent_works 1 (HF [1] [2] [3]) (survey s) [V3 3 4 0] "secondary" (Co s)) as (r & H & _); try discriminate; [|eauto].
  repeat constructor; cbn; lra.
Qed.
Print Assumptions C115_below_is_hidden.
Print Assumptions C115_cover_damps.
Print Assumptions C115_thick_layer_is_basement.
Print Assumptions C115_half_disc.
Print Assumptions C115_weak_induction.
Print Assumptions C115_strong_induction.
Print Assumptions C115_field_does_not_see_deep.
