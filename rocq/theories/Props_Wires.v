(** C118: current-carrying wires against the other sources. *)
From Coq Require Import String Reals List Lra Lia.
From Coquelicot Require Import Coquelicot.
From Verif Require Import Vec3 Calculus Numpy Cplx Model_Static Model_FDEM Spec_Static Spec_Loop Spec_Wires Proof_Line Proof_Line2 Proof_Wires Proof_Wires2 Proof_Wires3 Proof_Wires4 Proof_Wires5.
Import ListNotations.
Open Scope R_scope.

(** C118: the middle of a long straight wire.  The flux density is mu I / (2 pi rho) around the wire, up to (rho / distance to the nearer end)^2 / 2 of it *)
Theorem C118_long_wire : forall (c u p : vec3) (L I sig mu : R), vnorm u = 1 ->
  let h := vdot u (vsub p c) in let rho := vnorm (vcross u (vsub p c)) in
  0 < rho -> 2 * Rabs h < L -> every_segment proper_segment (straight c u L) ->
  exists B, lc_flux_density (LC (straight c u L) I sig mu) p = Ok (Some B) /\
    vnorm (vsub B (vscal (mu * I / (2 * PI * rho ^ 2)) (vcross u (vsub p c)))) <= Rabs (mu * I) / (4 * PI * rho) * (rho / (L / 2 - Rabs h)) ^ 2.
Proof. intros c u p L I sig mu Hu h rho Hr HL P. exact (long_B c u p L Hu Hr HL I sig mu P). Qed.

(** C118: a short straight wire is the electric dipole of the frequency-domain module at frequency zero: the magnetic field ... *)
Theorem C118_short_wire_magnetic : forall (c u p : vec3) (L I sig mu eps : R) (qs : pyflag), vnorm u = 1 ->
  let r := vnorm (vsub p c) in let wire := LC (straight c u L) I sig mu in let dipole := ED (FD 0 sig mu eps qs) I L u c in
  0 < L <= r -> every_segment proper_segment (lc_nodes wire) -> every_segment (off_line p) (lc_nodes wire) ->
  exists B D, lc_flux_density wire p = Ok (Some B) /\ ed_B dipole p = cvof 1%C D /\
    vnorm (vsub B D) <= Rabs (mu * I) * L / (4 * PI * r ^ 2) * (41 / 4 * (L / r) ^ 2).
Proof. intros c u p L I sig mu eps qs Hu r wire dipole HL P O. exact (short_B c u p L I sig mu eps qs Hu HL P O). Qed.
(** ... and the electric field *)
Theorem C118_short_wire_electric : forall (c u p : vec3) (L I sig mu eps : R) (qs : pyflag), vnorm u = 1 ->
  let r := vnorm (vsub p c) in let wire := LC (straight c u L) I sig mu in let dipole := ED (FD 0 sig mu eps qs) I L u c in
  0 < L <= r -> 0 < sig ->
  exists D, ed_E dipole p = cvof 1%C D /\
    vnorm (vsub (lc_electric_field wire p) D) <= Rabs I * L / (4 * PI * sig * r ^ 3) * (21 * (L / r) ^ 2).
Proof. intros c u p L I sig mu eps qs Hu r wire dipole HL S. exact (short_E c u p L I sig mu eps qs Hu HL S). Qed.

(** C118: a closed wire of any shape is, from a distance r, the magnetic dipole whose moment is the current times the wire's vector area *)
Theorem C118_closed_wire_is_a_dipole : forall (s : lcur) (c : vec3) (a : R) (p : vec3) (m : R) (n : vec3),
  let r := vnorm (vsub p c) in let dipole := MD m n c (lc_mu s) in
  closed_wire (lc_nodes s) -> lc_nodes s <> [] -> within a c (lc_nodes s) -> 0 < r -> 2 * a <= r ->
  every_segment proper_segment (lc_nodes s) -> every_segment (off_line p) (lc_nodes s) ->
  vnorm n = 1 -> vscal m n = vscal (lc_current s) (wire_area c (lc_nodes s)) ->
  exists B D, lc_flux_density s p = Ok (Some B) /\ mdipole_flux_density dipole "cartesian" p = Ok D /\
    vnorm (vsub B D) <= Rabs (lc_mu s * lc_current s) / (4 * PI) * (41 * a ^ 2 / r ^ 4 * wire_length (lc_nodes s)).
Proof.
  intros s c a p m n r dipole C N W Hp Hr P O _ E. destruct (closed_far_B s c a p m n P O C W N E Hp Hr) as (B & HB & K).
  exists B, (md_B dipole p). split; [exact HB|]. split; [reflexivity|exact K].
Qed.
Theorem C118_closed_wire_vector_potential : forall (s : lcur) (c : vec3) (a : R) (p : vec3) (m : R) (n : vec3),
  let r := vnorm (vsub p c) in let dipole := MD m n c (lc_mu s) in
  closed_wire (lc_nodes s) -> lc_nodes s <> [] -> within a c (lc_nodes s) -> 0 < r -> 2 * a <= r ->
  every_segment proper_segment (lc_nodes s) ->
  vnorm n = 1 -> vscal m n = vscal (lc_current s) (wire_area c (lc_nodes s)) ->
  exists A D, lc_vector_potential s p = Ok A /\ mdipole_vector_potential dipole "cartesian" p = Ok D /\
    vnorm (vsub A D) <= Rabs (lc_mu s * lc_current s) / (4 * PI) * (3 * a ^ 2 / r ^ 3 * wire_length (lc_nodes s)).
Proof.
  intros s c a p m n r dipole C N W Hp Hr P _ E. destruct (closed_far_A s c a p m n P C W N E Hp Hr) as (A & HA & K).
  exists A, (md_A dipole p). split; [exact HA|]. split; [reflexivity|exact K].
Qed.

(** C118: the regular polygon with N sides inscribed in a loop has the loop's flux density and vector potential up to a multiple of 1/N,
    wherever the loop class evaluates its elliptic integrals *)
Theorem C118_polygon_is_a_loop : forall (s : cloop) (u v p : vec3) (N : nat) (sig : R),
  let a := cl_radius s in let c := cl_loc s in let n := cl_orient s in
  let rho := axis_distance n c p in let h := axis_height n c p in let delta := ring_distance n c a p in
  let wire := LC (polygon c u v a N) (cl_current s) sig (cl_mu s) in
  0 < a -> orthonormal u v -> n = vcross u v -> proper_axis n -> 1 / 10 ^ 6 <= rho ^ 2 / (a ^ 2 + h ^ 2) ->
  0 < delta -> 16 * PI * a <= delta * INR N -> every_segment proper_segment (lc_nodes wire) ->
  (exists A A', lc_vector_potential wire p = Ok A /\ loop_vector_potential s "cartesian" p = Ok A' /\
    vnorm (vsub A A') <= Rabs (cl_mu s * cl_current s) * PI / INR N * (4 * a / delta + 32 * a ^ 2 / delta ^ 2)) /\
  (every_segment (off_line p) (lc_nodes wire) ->
   exists B B', lc_flux_density wire p = Ok (Some B) /\ loop_flux_density s "cartesian" p = Ok B' /\
    vnorm (vsub B B') <= Rabs (cl_mu s * cl_current s) * PI / INR N * (8 * a / delta ^ 2 + 256 * a ^ 2 / delta ^ 3)).
Proof.
  intros s u v p N sig a c n rho h delta wire Ha HO Hn HP Br Hd HN Hw. split.
  - exact (polygon_loop_A s u v p N sig Ha HO Hn HP Hd HN Hw Br).
  - exact (polygon_loop_B s u v p N sig Ha HO Hn HP Hd HN Hw Br).
Qed.
(** C118: next to the axis, where the class uses its series, there is in addition the error of the series *)
Theorem C118_polygon_near_the_axis : forall (s : cloop) (u v p : vec3) (N : nat) (sig : R),
  let a := cl_radius s in let c := cl_loc s in let n := cl_orient s in
  let rho := axis_distance n c p in let h := axis_height n c p in let delta := ring_distance n c a p in
  let wire := LC (polygon c u v a N) (cl_current s) sig (cl_mu s) in
  0 < a -> orthonormal u v -> n = vcross u v -> proper_axis n -> rho ^ 2 / (a ^ 2 + h ^ 2) < 1 / 10 ^ 6 ->
  0 < delta -> 16 * PI * a <= delta * INR N -> every_segment proper_segment (lc_nodes wire) -> every_segment (off_line p) (lc_nodes wire) ->
  exists B B', lc_flux_density wire p = Ok (Some B) /\ loop_flux_density s "cartesian" p = Ok B' /\
    vnorm (vsub B B') <= Rabs (cl_mu s * cl_current s) * PI / INR N * (8 * a / delta ^ 2 + 256 * a ^ 2 / delta ^ 3) +
      260 * Rabs (cl_mu s * cl_current s) * a ^ 2 * Rabs h * rho ^ 5 / sqrt (a ^ 2 + h ^ 2) ^ 9.
Proof.
  intros s u v p N sig a c n rho h delta wire Ha HO Hn HP Br Hd HN Hw O. exact (polygon_loop_B_axis s u v p N sig Ha HO Hn HP Hd HN Hw Br O).
Qed.

(** a tilted wire, seen from 10 away: as a short wire (length 2) and as a long one (length 100) *)
Lemma witness_straight L : 0 < L -> every_segment proper_segment (straight (V3 1 2 3) (V3 (3 / 5) 0 (4 / 5)) L) /\ every_segment (off_line (V3 1 8 11)) (straight (V3 1 2 3) (V3 (3 / 5) 0 (4 / 5)) L).
Proof.
  intros HL. unfold straight. cbn [every_segment].
  assert (D : vsub (vadd (V3 1 2 3) (vscal (L / 2) (V3 (3 / 5) 0 (4 / 5)))) (vsub (V3 1 2 3) (vscal (L / 2) (V3 (3 / 5) 0 (4 / 5)))) = V3 (L * (3 / 5)) 0 (L * (4 / 5))) by (unfold vsub, vadd, vscal; cbn; f_equal; field).
  assert (NN : vnorm (V3 (L * (3 / 5)) 0 (L * (4 / 5))) = L) by (apply vnorm_unique; [lra|]; unfold vnorm2; cbn; field).
  split; split; try exact I.
  - split; [intros E; apply V3_inj in E; cbn in E; lra|]. cbv zeta. left. rewrite D, NN.
    replace (vcross (vscal (/ L) (V3 (L * (3 / 5)) 0 (L * (4 / 5)))) (V3 1 0 0)) with (V3 0 (4 / 5) 0) by (unfold vcross, vscal; cbn; f_equal; field; lra).
    replace (vnorm (V3 0 (4 / 5) 0)) with (4 / 5) by (symmetry; apply vnorm_unique; [lra|]; unfold vnorm2; cbn; field).
    apply Rle_trans with (/ 2); [apply Rinv_le_contravar; lra|lra].
  - unfold off_line. rewrite D. intros E. unfold vcross, vsub, vadd, vscal, vzero in E; cbn in E. apply V3_inj in E. lra.
Qed.
Example C118_straight_witness :
  let c := V3 1 2 3 in let u := V3 (3 / 5) 0 (4 / 5) in let p := V3 1 8 11 in
  vnorm u = 1 /\ 0 < 2 <= vnorm (vsub p c) /\ 0 < vnorm (vcross u (vsub p c)) /\ 2 * Rabs (vdot u (vsub p c)) < 100 /\
  every_segment proper_segment (straight c u 2) /\ every_segment (off_line p) (straight c u 2) /\ every_segment proper_segment (straight c u 100).
Proof.
  cbv zeta. assert (R : vnorm (vsub (V3 1 8 11) (V3 1 2 3)) = 10) by (apply vnorm_unique; [lra|]; unfold vnorm2, vsub; cbn; lra).
  split; [apply vnorm_unique; [lra|]; unfold vnorm2; cbn; lra|]. split; [rewrite R; lra|]. split.
  { apply vnorm_pos. intros E. unfold vcross, vsub, vzero in E; cbn in E. apply V3_inj in E. lra. }
  split; [replace (vdot (V3 (3 / 5) 0 (4 / 5)) (vsub (V3 1 8 11) (V3 1 2 3))) with (32 / 5) by (unfold vdot, vsub; cbn; lra); rewrite Rabs_pos_eq; lra|].
  split; [apply witness_straight; lra|]. split; apply witness_straight; lra.
Qed.

(** a square of side sqrt 2, seen from 5 away: its vector area is 2 along z *)
Example C118_square_witness :
  let s := LC [V3 1 0 0; V3 0 1 0; V3 (-1) 0 0; V3 0 (-1) 0; V3 1 0 0] 3 1 1 in let p := V3 0 3 4 in
  closed_wire (lc_nodes s) /\ within 1 vzero (lc_nodes s) /\ 2 * 1 <= vnorm (vsub p vzero) /\
  every_segment proper_segment (lc_nodes s) /\ every_segment (off_line p) (lc_nodes s) /\
  vnorm (V3 0 0 1) = 1 /\ vscal 6 (V3 0 0 1) = vscal (lc_current s) (wire_area vzero (lc_nodes s)).
Proof.
  cbv zeta. cbn [lc_nodes lc_current]. split; [reflexivity|]. split.
  { unfold within. repeat apply List.Forall_cons; try apply List.Forall_nil; (right; apply vnorm_unique; [lra|]; unfold vnorm2, vsub, vzero; cbn; ring). }
  split; [replace (vnorm _) with 5 by (symmetry; apply vnorm_unique; [lra|]; unfold vnorm2, vsub, vzero; cbn; ring); lra|].
  assert (S : forall a b x y z, vsub b a = V3 x y z -> x * x = 1 -> y * y = 1 -> z = 0 -> proper_segment a b).
  { intros a b x y z D X Y Z. subst z. assert (Q : vnorm (V3 x y 0) = sqrt 2) by (unfold vnorm, vnorm2; cbn; f_equal; lra).
    assert (Q2 : 0 < sqrt 2) by (apply sqrt_lt_R0; lra). assert (Q3 : sqrt 2 * sqrt 2 = 2) by (apply sqrt_sqrt; lra). split.
    - intros E. subst b. replace (vsub a a) with vzero in D by (destruct a; unfold vsub, vzero; cbn; f_equal; ring). unfold vzero in D. apply V3_inj in D. destruct D as (D1 & _). subst x. lra.
    - cbv zeta. left. rewrite D, Q. apply Rle_trans with (/ 2); [apply Rinv_le_contravar; lra|].
      replace (vcross (vscal (/ sqrt 2) (V3 x y 0)) (V3 1 0 0)) with (V3 0 0 (- (/ sqrt 2 * y))) by (unfold vcross, vscal; cbn; f_equal; ring).
      replace (vnorm (V3 0 0 (- (/ sqrt 2 * y)))) with (/ sqrt 2).
      + apply Rinv_le_contravar; [exact Q2|]. nra.
      + symmetry. apply vnorm_unique; [apply Rlt_le, Rinv_0_lt_compat, Q2|]. unfold vnorm2; cbn. transitivity (/ sqrt 2 * / sqrt 2 * (y * y)); [rewrite Y; ring|ring]. }
  split; [cbn [every_segment]; repeat (split; [eapply S; [unfold vsub; cbn; reflexivity|ring|ring|ring]|]); exact I|].
  split; [cbn [every_segment]; repeat (split; [intros E; unfold off_line, vcross, vsub, vzero in E; cbn in E; apply V3_inj in E; lra|]); exact I|].
  split; [apply vnorm_unique; [lra|]; unfold vnorm2; cbn; ring|].
  cbn [wire_area]. unfold vscal, vadd, vcross, vsub, vzero; cbn. f_equal; field.
Qed.

(** the polygon with 22 sides in the unit loop about the x axis, from 3 away *)
Lemma witness_polygon (m j : nat) : let nodes := map (fun k => circle vzero (V3 0 1 0) (V3 0 0 1) 1 (2 * PI * (INR k / INR 22))) (seq j (S m)) in
  every_segment proper_segment nodes /\ every_segment (off_line (V3 3 1 0)) nodes.
Proof.
  cbv zeta. revert j. induction m as [|m IH]; intros j; [split; exact I|]. change (seq j (S (S m))) with (j :: S j :: seq (S (S j)) m). cbn [map]. destruct (IH (S j)) as [I1 I2].
  assert (I22 : INR 22 = 22) by (rewrite INR_IZR_INZ; reflexivity). pose proof PI_RGT_0 as Pi.
  set (x := 2 * PI * (INR j / INR 22)). assert (E : 2 * PI * (INR (S j) / INR 22) = x + PI / 11) by (unfold x; rewrite S_INR, I22; field). 
  assert (Q : forall t, circle vzero (V3 0 1 0) (V3 0 0 1) 1 t = V3 0 (cos t) (sin t)) by (intros t; unfold circle, vzero, vadd, vscal; cbn; f_equal; ring).
  assert (NE : V3 0 (cos x) (sin x) <> V3 0 (cos (x + PI / 11)) (sin (x + PI / 11))).
  { intros F. apply V3_inj in F. destruct F as (_ & F1 & F2). assert (C : cos (PI / 11) = 1).
    { replace (PI / 11) with (x + PI / 11 - x) by ring. rewrite cos_minus, <- F1, <- F2. pose proof (sin2_cos2 x) as S. unfold Rsqr in S. lra. }
    assert (cos (PI / 11) < cos 0) by (apply cos_decreasing_1; lra). rewrite cos_0 in *. lra. }
  split; (split; [|assumption]); rewrite E, !Q.
  - split; [exact NE|]. cbv zeta. left. set (l := vsub _ _). assert (L : l <> vzero).
    { unfold l. intros F. apply NE. unfold vsub, vzero in F; cbn in F. apply V3_inj in F. f_equal; lra. }
    assert (X : vx l = 0) by (unfold l, vsub; cbn; ring). pose proof (vnorm_pos l L) as NP. clearbody l.
    replace (vnorm (vcross (vscal (/ vnorm l) l) (V3 1 0 0))) with 1; [apply Rle_trans with (/ 1); [apply Rinv_le_contravar; lra|lra]|].
    symmetry. apply vnorm_unique; [lra|]. pose proof (vnorm_sqr l) as S. destruct l as [l1 l2 l3]. cbn [vx] in X. subst l1. unfold vnorm2, vcross, vscal in *; cbn [vx vy vz] in *.
    set (k := vnorm (V3 0 l2 l3)) in *. transitivity (/ k * / k * (k * k)); [field; lra|]. rewrite S. ring.
  - unfold off_line. intros F. unfold vcross, vsub, vzero in F; cbn in F. apply V3_inj in F. destruct F as (_ & F2 & F3). apply NE. f_equal; lra.
Qed.
Example C118_polygon_witness :
  let s := CL 1 5 (V3 1 0 0) vzero 3 in let u := V3 0 1 0 in let v := V3 0 0 1 in let p := V3 3 1 0 in let nodes := polygon (cl_loc s) u v (cl_radius s) 22 in
  orthonormal u v /\ cl_orient s = vcross u v /\ proper_axis (cl_orient s) /\
  1 / 10 ^ 6 <= axis_distance (cl_orient s) (cl_loc s) p ^ 2 / (cl_radius s ^ 2 + axis_height (cl_orient s) (cl_loc s) p ^ 2) /\
  16 * PI * cl_radius s <= ring_distance (cl_orient s) (cl_loc s) (cl_radius s) p * INR 22 /\
  every_segment proper_segment nodes /\ every_segment (off_line p) nodes.
Proof.
  cbv zeta. cbn [cl_loc cl_radius cl_orient].
  assert (H : axis_height (V3 1 0 0) vzero (V3 3 1 0) = 3) by (unfold axis_height, vdot, vsub, vzero; cbn; ring).
  assert (D : axis_distance (V3 1 0 0) vzero (V3 3 1 0) = 1) by (apply vnorm_unique; [lra|]; unfold vnorm2, vcross, vsub, vzero; cbn; ring).
  assert (G : ring_distance (V3 1 0 0) vzero 1 (V3 3 1 0) = 3) by (unfold ring_distance; rewrite H, D; replace ((1 - 1) ^ 2 + 3 ^ 2) with (3 * 3) by ring; apply sqrt_square; lra).
  rewrite H, D, G. split; [repeat split; unfold vdot; cbn; ring|]. split; [unfold vcross; cbn; f_equal; ring|]. split.
  { split; [apply vnorm_unique; [lra|]; unfold vnorm2; cbn; ring|]. left. replace (vnorm _) with 1; [apply Rle_trans with (/ 1); [apply Rinv_le_contravar; lra|lra]|].
    symmetry. apply vnorm_unique; [lra|]. unfold vnorm2, vcross; cbn; ring. }
  split; [lra|]. split; [pose proof PI_4; replace (INR 22) with 22 by (rewrite INR_IZR_INZ; reflexivity); lra|].
  exact (witness_polygon 22 0).
Qed.
Print Assumptions C118_long_wire.
Print Assumptions C118_short_wire_magnetic.
Print Assumptions C118_short_wire_electric.
Print Assumptions C118_closed_wire_is_a_dipole.
Print Assumptions C118_closed_wire_vector_potential.
Print Assumptions C118_polygon_is_a_loop.
Print Assumptions C118_polygon_near_the_axis.
