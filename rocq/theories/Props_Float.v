(** C107 and C108: accuracy of floating point results. *)
From Coq Require Import ZArith Reals Lra Lia List.
From Flocq Require Import Core.
From Verif Require Import Vec3 Numpy Model_Gravity Model_Static Model_Prism Model_Float Spec_Float Proof_Float Proof_Float2 Proof_Float3 Proof_Float4.
Import ListNotations.
Open Scope R_scope.

(** C107: the distance between any two points *)
Theorem C107_distance p q : within 5 (fdistance p q) (vnorm (vsub p q)).
Proof. apply (near_within' 5 4); [lia|cbn; lra|apply near_dist]. Qed.

(** C107: point masses *)
Theorem C107_point_mass mass loc p : p <> loc ->
  within 8 (fpm_potential mass loc p) (pm_potential (PM mass loc) p) /\
  each (within 20) (fpm_field mass loc p) (pm_field (PM mass loc) p).
Proof.
  intros _. split.
  - apply (near_within' 8 7); [lia|cbn; lra|]. exact (near_pm_potential 0 mass mass loc p (near_refl 0 mass)).
  - apply (vnear_within 20 19); [lia|cbn; lra|]. exact (near_pm_field 0 mass mass loc p (near_refl 0 mass)).
Qed.

(** C107: the massive sphere, at every point: also where rounding the distance puts a point on the other side of the surface *)
Theorem C107_sphere pow radius rho loc p phi g : good_pow pow -> 0 < radius ->
  gs_potential_grid (GS radius rho loc) [p] = Ok [phi] -> gs_field_grid (GS radius rho loc) [p] = Ok [g] ->
  within 51 (fgs_potential pow radius rho loc p) phi /\ each (within 51) (fgs_field pow radius rho loc p) g.
Proof.
  intros H P A B. split.
  - apply (near_within' 51 50); [lia|cbn; lra|]. eapply sphere_potential_near; eauto.
  - apply (vnear_within 51 50); [lia|cbn; lra|]. eapply sphere_field_near; eauto.
Qed.

(** C107: the magnetic pole *)
Theorem C107_pole moment mu loc o p : p <> loc -> each (within 22) (fmp_B moment mu loc p) (mp_B (MD moment o loc mu) p).
Proof. intros _. apply (vnear_within 22 21); [lia|cbn; lra|apply pole_near]. Qed.

(** C107: point currents *)
Theorem C107_point_current pow rho current loc p : good_pow pow -> p <> loc -> rho <> 0 ->
  within 11 (fpc_potential rho current loc p) (pc_potential (point_current rho current loc) p) /\
  each (within 30) (fpc_E pow rho current loc p) (pc_electric_field (point_current rho current loc) p).
Proof.
  intros H _ _. split.
  - apply (near_within' 11 10); [lia|cbn; lra|apply point_potential_near].
  - apply (vnear_within 30 29); [lia|cbn; lra|apply point_E_near, H].
Qed.

(** C107: the electrode of a half-space: its image never cancels it *)
Theorem C107_half_space rho current loc p : p <> loc -> p <> mirror loc -> rho <> 0 ->
  within 12 (fhs_potential rho current loc p) (hs_V (HS rho current loc) p).
Proof. intros _ _ _. apply (near_within' 12 11); [lia|cbn; lra|apply half_space_near]. Qed.

(** the library power exists, and the sphere's hypotheses hold at a point of it *)
Example C107_witness : good_pow (fun x k => fl (x ^ k)) /\
  exists phi g, gs_potential_grid (GS 2 3 (V3 0 0 0)) [V3 1 0 0] = Ok [phi] /\ gs_field_grid (GS 2 3 (V3 0 0 0)) [V3 1 0 0] = Ok [g].
Proof.
  split.
  - intros x k. apply (near_within' 8 1); [lia|cbn; lra|apply near_fl].
  - rewrite gs_potential_one, gs_field_one. do 2 eexists. split; reflexivity.
Qed.

(** C108: with floating point coordinates the logarithm is taken of positive numbers only *)
Theorem C108_log_of_positive_numbers log log' x y z : (forall t, 0 < t -> log t = log' t) ->
  (float y -> fprism_fzx log x y z = fprism_fzx log' x y z) /\ (float x -> fprism_fzy log x y z = fprism_fzy log' x y z).
Proof.
  intros H. split; intros F; [apply log_positive; assumption|]. rewrite !fzy_fzx. apply log_positive; assumption.
Qed.

(** C108: where the coordinate along the edge is not negative the kernels are accurate *)
Theorem C108_accurate_side log x y z : good_log log ->
  (0 <= y -> Rabs (fprism_fzx log x y z - prism_fzx x y z) <= 10 * / 2 ^ 53 * (1 + Rabs (prism_fzx x y z))) /\
  (0 <= x -> Rabs (fprism_fzy log x y z - prism_fzy x y z) <= 10 * / 2 ^ 53 * (1 + Rabs (prism_fzy x y z))).
Proof.
  intros G. split; intros P; [apply fzx_accurate; assumption|]. rewrite fzy_fzx, zy_zx. apply fzx_accurate; assumption.
Qed.

(** C108: on the other side, in a cone around the edge's line, the computed kernel is the one of the line itself, wherever
    in the cone the point is *)
Theorem C108_constant_in_the_cone log x y z :
  (float y -> y < 0 -> Rabs x * 2 ^ 27 <= Rabs y -> Rabs z * 2 ^ 27 <= Rabs y -> fprism_fzx log x y z = log (-2 * y)) /\
  (float x -> x < 0 -> Rabs y * 2 ^ 27 <= Rabs x -> Rabs z * 2 ^ 27 <= Rabs x -> fprism_fzy log x y z = log (-2 * x)).
Proof.
  split; intros F N A B; [apply fzx_edge; assumption|]. rewrite fzy_fzx. apply fzx_edge; assumption.
Qed.

(** C108: so there the error has no bound, although the point is not on the line *)
Theorem C108_accurate_everywhere_refuted bound :
  (exists x, float x /\ float (-1) /\ x <> 0 /\ prism_fzx x (-1) 0 - fprism_fzx ln x (-1) 0 > bound) /\
  (exists y, float y /\ float (-1) /\ y <> 0 /\ prism_fzy (-1) y 0 - fprism_fzy ln (-1) y 0 > bound).
Proof.
  destruct (fzx_unbounded bound) as (x & A). split; exists x; [exact A|]. rewrite fzy_fzx, zy_zx. exact A.
Qed.

(** C108: the exact kernels decrease along every edge ... *)
Theorem C108_decreasing_along_an_edge x y z t1 t2 : t1 < t2 ->
  (x <> 0 \/ z <> 0 -> prism_fzx x t2 z < prism_fzx x t1 z) /\ (y <> 0 \/ z <> 0 -> prism_fzy t2 y z < prism_fzy t1 y z).
Proof. intros L. split; intros H; [apply fzx_decreasing; assumption|]. rewrite !zy_zx. apply fzx_decreasing; assumption. Qed.
(** ... the computed ones do not: the contribution of an edge can get the wrong sign *)
Theorem C108_edge_contribution_sign_refuted :
  ~ (forall x t1 t2 z, float x -> float z -> float t1 -> float t2 -> x <> 0 \/ z <> 0 -> t1 < t2 -> fprism_fzx ln x t2 z <= fprism_fzx ln x t1 z) /\
  ~ (forall y t1 t2 z, float y -> float z -> float t1 -> float t2 -> y <> 0 \/ z <> 0 -> t1 < t2 -> fprism_fzy ln t2 y z <= fprism_fzy ln t1 y z).
Proof.
  split; intros H;
    specialize (H (/ 2 ^ 20) (-256) (-1) 0 float_20 float_0 float_256 float_m1 (or_introl (Rgt_not_eq (/ 2 ^ 20) 0 ltac:(lra))) ltac:(lra));
    pose proof wrong_sign; rewrite ?fzy_fzx in H; lra.
Qed.

(** floating point coordinates in and out of the cone *)
Example C108_witness : float (/ 2 ^ 20) /\ float (-256) /\ Rabs (/ 2 ^ 20) * 2 ^ 27 <= Rabs (-256) /\ ~ (Rabs (/ 2 ^ 20) * 2 ^ 27 <= Rabs (-1)) /\ good_log (fun t => fl (ln t)).
Proof.
  split; [apply float_20|]. split; [apply float_256|]. rewrite (Rabs_pos_eq (/ 2 ^ 20)) by lra. rewrite !Rabs_left by lra.
  split; [lra|]. split; [lra|]. intros t _. apply (near_within' 8 1); [lia|cbn; lra|apply near_fl].
Qed.
Print Assumptions C107_distance.
Print Assumptions C107_point_mass.
Print Assumptions C107_sphere.
Print Assumptions C107_pole.
Print Assumptions C107_point_current.
Print Assumptions C107_half_space.
Print Assumptions C108_log_of_positive_numbers.
Print Assumptions C108_accurate_side.
Print Assumptions C108_constant_in_the_cone.
Print Assumptions C108_accurate_everywhere_refuted.
Print Assumptions C108_decreasing_along_an_edge.
Print Assumptions C108_edge_contribution_sign_refuted.
