(** C134: the gravity of a prism in floating point. *)
From Coq Require Import ZArith Reals Lra.
From Verif Require Import Vec3 Numpy Model_Gravity Model_Prism Spec_Prism Model_Float Model_Float4 Spec_Float Spec_Float2 Spec_Float3 Proof_Float Proof_Float9 Proof_Float10.
From Verif Require Props_Prism.
Open Scope R_scope.

(** C134: at every station, inside, outside, on a face, an edge or a corner, the diagonal of the computed gradient is within
    400 unit roundoffs of G rho of the exact one *)
Theorem C134_diagonal_is_accurate log arctan b rho p : good_atan arctan ->
  let e := 400 * / 2 ^ 53 * (G_newton * Rabs rho) in
  let c := fgravitational_gradient log arctan b rho p in let x := gravitational_gradient G_newton b rho p in
  Rabs (vx (m0 c) - vx (m0 x)) <= e /\ Rabs (vy (m1 c) - vy (m1 x)) <= e /\ Rabs (vz (m2 c) - vz (m2 x)) <= e.
Proof. exact (diagonal log arctan b rho p). Qed.

(** C134: so the computed gradient satisfies Poisson's equation to 1200 unit roundoffs of G rho *)
Theorem C134_poisson log arctan b rho p : good_atan arctan ->
  let t := mtrace (fgravitational_gradient log arctan b rho p) in let e := 1200 * / 2 ^ 53 * (G_newton * Rabs rho) in
  (inside b p -> Rabs (t - - (4 * PI * G_newton * rho)) <= e) /\ (ordered b -> off_faces b p -> outside b p -> Rabs t <= e).
Proof.
  intros G t e. destruct (diagonal log arctan b rho p G) as (X & Y & Z). fold u in e. set (c := fgravitational_gradient log arctan b rho p) in *.
  set (x := gravitational_gradient G_newton b rho p) in *.
  assert (T : Rabs (t - mtrace x) <= e).
  { unfold t, mtrace. replace (_ - _) with ((vx (m0 c) - vx (m0 x)) + ((vy (m1 c) - vy (m1 x)) + (vz (m2 c) - vz (m2 x)))) by ring.
    eapply Rle_trans; [apply Rabs_triang|]. pose proof (Rabs_triang (vy (m1 c) - vy (m1 x)) (vz (m2 c) - vz (m2 x))). unfold e. lra. }
  destruct (Props_Prism.C29_poisson G_newton b rho p) as (I & O'). split.
  - intros I0. rewrite <- (I I0). exact T.
  - intros A B D. pose proof (O' A B D) as E. fold x in E. rewrite E, Rminus_0_r in T. exact T.
Qed.

(** C134, FINDING: the relative error is not bounded.  Where the cube of the distance is 2^60 times the volume, every component of the
    computed field is 0 or more than seven times too large, and so is every diagonal entry of the computed gradient that should not be 0 *)
Theorem C134_far_away_refuted log arctan d rho b p : float_log log -> good_atan arctan -> 1 <= d -> ordered b -> beyond d b p -> 0 < rho -> 2 ^ 60 * volume b <= d ^ 3 ->
  let c := fgravitational_field log arctan b rho p in let x := gravitational_field G_newton b rho p in
  let cg := fgravitational_gradient log arctan b rho p in let xg := gravitational_gradient G_newton b rho p in
  (useless 7 (vx c) (vx x) /\ useless 7 (vy c) (vy x) /\ useless 7 (vz c) (vz x)) /\
  (vx (m0 xg) <> 0 -> useless 7 (vx (m0 cg)) (vx (m0 xg))) /\ (vy (m1 xg) <> 0 -> useless 7 (vy (m1 cg)) (vy (m1 xg))) /\ (vz (m2 xg) <> 0 -> useless 7 (vz (m2 cg)) (vz (m2 xg))).
Proof. intros GL GA D O F P S. split; [apply (field_lost log arctan d rho b p GL GA D O F P S)|apply (gradient_lost log arctan d rho b p GA D O F P S)]. Qed.

(** one metre cubed, 2500 km away, with correctly rounded library functions *)
Example C134_witness : let log t := fl (ln t) in let arctan t := fl (atan t) in let d := 2 ^ 20 in
  let b := Box (V3 0 0 0) (V3 1 1 1) in let p := V3 (- 2 ^ 20) (- 2 ^ 20) (1 - 2 ^ 21) in
  float_log log /\ good_atan arctan /\ 1 <= d /\ ordered b /\ beyond d b p /\ 2 ^ 60 * volume b <= d ^ 3 /\
  vz (m2 (gravitational_gradient G_newton b 1 p)) <> 0 /\
  inside b (V3 (/ 2) (/ 2) (/ 2)) /\ off_faces b p /\ outside b p.
Proof.
  cbv zeta. split; [apply good_lib|]. split; [apply good_lib|]. split; [lra|]. split; [unfold ordered; cbn [b_min b_max vx vy vz]; lra|]. split; [unfold beyond; cbn [b_min b_max vx vy vz]; lra|].
  split; [unfold volume; cbn [b_min b_max vx vy vz]; lra|]. split; [exact wzz|].
  split; [unfold inside; cbn [b_min b_max vx vy vz]; lra|]. split; [unfold off_faces; cbn [b_min b_max vx vy vz]; repeat split; lra|]. left; left. cbn [b_min b_max vx vy vz]. lra.
Qed.
Print Assumptions C134_diagonal_is_accurate.
Print Assumptions C134_poisson.
Print Assumptions C134_far_away_refuted.
