(** The flux a source sends through another one. *)
From Coq Require Import String Reals List Lra.
From Coquelicot Require Import Coquelicot.
From Verif Require Import Vec3 Calculus Numpy Model_Static Spec_Static Spec_Loop Spec_Wires Spec_Linkage Fubini Proof_Line Proof_Line2 Proof_Loop3 Proof_Wires Proof_Wires2 Proof_Wires5 Proof_Linkage.
Import ListNotations.
Open Scope R_scope.

Definition okv (r : result vec3) : vec3 := match r with Ok v => v | Raise _ => vzero end.
Lemma vdot_scal_l k v w : vdot (vscal k v) w = k * vdot v w. Proof. destruct v, w; unfold vdot, vscal; cbn; ring. Qed.

(** *** linking relations *)
Lemma wire_link s h : proper_wire (lc_nodes s) -> (forall g, In g (arcs (lc_nodes s)) -> apart g h) ->
  link (lc_mu s * lc_current s / (4 * PI)) (arcs (lc_nodes s)) (fun p => okv (lc_vector_potential s p)) h.
Proof.
  intros P A t Ht. assert (O : every_segment (off_segment (ap h t)) (lc_nodes s)).
  { apply (proj2 (arcs_each (fun g => forall x, 0 <= x <= 1 -> ap h t <> ap g x) (lc_nodes s))). apply List.Forall_forall. intros g Ig x Hx E.
    assert (alo g <= x <= ahi g).
    { clear - Ig Hx. induction (lc_nodes s) as [|a [|b rest] IH]; cbn in Ig; [contradiction|contradiction|]. destruct Ig as [<-|Ig]; [exact Hx|apply IH; exact Ig]. }
    exact (A g Ig x t H Ht (eq_sym E)). }
  destruct (line_vector_potential s (ap h t) P O) as [V [HV E]]. rewrite E. cbn [okv]. rewrite vdot_scal_l. f_equal. apply (wire_pot _ (ap h t)); [exact HV|reflexivity].
Qed.
Lemma ring_link s u v h : 0 < cl_radius s -> orthonormal u v -> cl_orient s = vcross u v -> proper_axis (cl_orient s) ->
  (forall t, alo h <= t <= ahi h -> off_ring (cl_orient s) (cl_loc s) (cl_radius s) (ap h t)) ->
  link (cl_mu s * cl_current s / (4 * PI)) [ring_arc (cl_loc s) u v (cl_radius s)] (fun p => okv (loop_vector_potential s "cartesian"%string p)) h.
Proof.
  intros Ha HO Hn P O t Ht. destruct (O t Ht) as [O1 O2]. destruct (loop_line_integral s u v (ap h t) Ha HO Hn P O1 O2) as [V [HV E]].
  rewrite E. cbn [okv]. rewrite vdot_scal_l. f_equal. apply (ring_pot _ _ _ _ (ap h t)); [exact HV|reflexivity].
Qed.
Lemma off_ring_apart c u v a n h : 0 < a -> orthonormal u v -> n = vcross u v -> (forall t, alo h <= t <= ahi h -> off_ring n c a (ap h t)) -> apart (ring_arc c u v a) h.
Proof.
  intros Ha HO -> O s t Hs Ht E. destruct (O t Ht) as [_ O2]. pose proof (ring_pos c u v (ap h t) a O2) as D. pose proof (ring_off c u v (ap h t) a HO Ha s) as L.
  cbn in E. rewrite E in L. replace (vsub (ap h t) (ap h t)) with vzero in L by (destruct (ap h t); unfold vsub, vzero; cbn; f_equal; ring). rewrite vnorm_zero in L. lra.
Qed.
Lemma in_arcs_range nodes h : In h (arcs nodes) -> alo h = 0 /\ ahi h = 1.
Proof. induction nodes as [|a [|b rest] IH]; cbn; [contradiction|contradiction|]. intros [<-|Ih]; [split; reflexivity|apply IH; exact Ih]. Qed.
Lemma along_arcs P nodes : along P nodes -> forall h, In h (arcs nodes) -> forall t, alo h <= t <= ahi h -> P (ap h t).
Proof.
  unfold along. intros H. apply (proj1 (arcs_each (fun h => forall t, 0 <= t <= 1 -> P (ap h t)) nodes)) in H. intros h Ih t Ht.
  destruct (in_arcs_range _ _ Ih) as [E1 E2]. rewrite E1, E2 in Ht. exact (proj1 (List.Forall_forall _ _) H h Ih t Ht).
Qed.
Lemma apart_arcs w1 w2 : wires_apart w1 w2 -> forall g h, In g (arcs w1) -> In h (arcs w2) -> apart g h.
Proof.
  unfold wires_apart, segments_apart. intros H g h Ig Ih.
  apply (proj1 (arcs_each (fun g => every_segment (fun x y => forall s t, 0 <= s <= 1 -> 0 <= t <= 1 -> ap g s <> on_seg x y t) w2) w1)) in H.
  pose proof (proj1 (List.Forall_forall _ _) H g Ig) as H1. cbv beta in H1.
  apply (proj1 (arcs_each (fun h => forall s t, 0 <= s <= 1 -> 0 <= t <= 1 -> ap g s <> ap h t) w2)) in H1.
  pose proof (proj1 (List.Forall_forall _ _) H1 h Ih) as H2. intros s t. destruct (in_arcs_range _ _ Ig) as [-> ->], (in_arcs_range _ _ Ih) as [-> ->]. apply H2.
Qed.
Lemma circ_link k gs F nodes : List.Forall good gs -> (forall g h, In g gs -> In h (arcs nodes) -> apart g h) -> (forall h, In h (arcs nodes) -> link k gs F h) ->
  is_circulation F nodes (k * asum (fun h => asum (fun g => neu g h) gs) (arcs nodes)).
Proof.
  intros G A L. rewrite <- asum_scal. apply circ_arcs. intros h Ih. apply arc_circ; auto. exact (proj1 (List.Forall_forall _ _) (arcs_good nodes) h Ih).
Qed.
Lemma mu4pi mu I M : mu * I / (4 * PI) * M = mu * I * (M / (4 * PI)).
Proof. unfold Rdiv. ring. Qed.

(** *** wire and wire *)
Lemma wire_wire s1 s2 : proper_wire (lc_nodes s1) -> proper_wire (lc_nodes s2) -> wires_apart (lc_nodes s1) (lc_nodes s2) ->
  exists F1 F2 M, (forall p, lc_vector_potential s1 p = Ok (F1 p)) /\ (forall p, lc_vector_potential s2 p = Ok (F2 p)) /\
    is_circulation F1 (lc_nodes s2) (lc_mu s1 * lc_current s1 * M) /\ is_circulation F2 (lc_nodes s1) (lc_mu s2 * lc_current s2 * M).
Proof.
  intros P1 P2 A. pose proof (apart_arcs _ _ A) as A1.
  exists (fun p => okv (lc_vector_potential s1 p)), (fun p => okv (lc_vector_potential s2 p)), (asum (fun h => asum (fun g => neu g h) (arcs (lc_nodes s1))) (arcs (lc_nodes s2)) / (4 * PI)).
  split; [intros p; rewrite (A_value s1 p P1); reflexivity|]. split; [intros p; rewrite (A_value s2 p P2); reflexivity|]. rewrite <- !mu4pi. split.
  - apply circ_link; [apply arcs_good|exact A1|]. intros h Ih. apply wire_link; [exact P1|]. auto.
  - rewrite (neumann _ _ (arcs_good _) (arcs_good _) A1). apply circ_link; [apply arcs_good|intros; apply apart_sym; auto|]. intros h Ih. apply wire_link; [exact P2|]. intros; apply apart_sym; auto.
Qed.

(** *** loop and wire *)
Lemma loop_ok s u v p : 0 < cl_radius s -> orthonormal u v -> cl_orient s = vcross u v -> proper_axis (cl_orient s) -> off_ring (cl_orient s) (cl_loc s) (cl_radius s) p ->
  loop_vector_potential s "cartesian"%string p = Ok (okv (loop_vector_potential s "cartesian"%string p)).
Proof. intros Ha HO Hn P [O1 O2]. destruct (loop_line_integral s u v p Ha HO Hn P O1 O2) as [V [HV E]]. rewrite E. reflexivity. Qed.

Lemma loop_wire s u v w : 0 < cl_radius s -> orthonormal u v -> cl_orient s = vcross u v -> proper_axis (cl_orient s) ->
  proper_wire (lc_nodes w) -> along (off_ring (cl_orient s) (cl_loc s) (cl_radius s)) (lc_nodes w) ->
  exists F G M, (forall p, off_ring (cl_orient s) (cl_loc s) (cl_radius s) p -> loop_vector_potential s "cartesian"%string p = Ok (F p)) /\
    (forall p, lc_vector_potential w p = Ok (G p)) /\
    is_circulation F (lc_nodes w) (cl_mu s * cl_current s * M) /\ is_circle_circulation G (cl_loc s) u v (cl_radius s) (lc_mu w * lc_current w * M).
Proof.
  intros Ha HO Hn P PW AL. set (g0 := ring_arc (cl_loc s) u v (cl_radius s)).
  assert (G0 : List.Forall good [g0]) by (constructor; [apply ring_good|constructor]).
  assert (A1 : forall g h, In g [g0] -> In h (arcs (lc_nodes w)) -> apart g h).
  { intros g h [<-|[]] Ih. apply (off_ring_apart _ _ _ _ (cl_orient s)); [assumption|assumption|assumption|]. exact (along_arcs _ _ AL h Ih). }
  exists (fun p => okv (loop_vector_potential s "cartesian"%string p)), (fun p => okv (lc_vector_potential w p)), (asum (fun h => asum (fun g => neu g h) [g0]) (arcs (lc_nodes w)) / (4 * PI)).
  split; [intros p Hp; exact (loop_ok s u v p Ha HO Hn P Hp)|]. split; [intros p; rewrite (A_value w p PW); reflexivity|]. rewrite <- !mu4pi. split.
  - apply circ_link; [exact G0|exact A1|]. intros h Ih. apply ring_link; try assumption. exact (along_arcs _ _ AL h Ih).
  - rewrite (neumann _ _ G0 (arcs_good _) A1). cbn [asum]. rewrite Rplus_0_r. unfold is_circle_circulation.
    apply (arc_circ _ (arcs (lc_nodes w)) (fun p => okv (lc_vector_potential w p)) g0); [apply arcs_good|apply ring_good| |].
    + intros g Ig. apply apart_sym, A1; [left; reflexivity|exact Ig].
    + apply wire_link; [exact PW|]. intros g Ig. apply apart_sym, A1; [left; reflexivity|exact Ig].
Qed.

(** *** loop and loop *)
Lemma loop_loop s u v r x y : 0 < cl_radius s -> orthonormal u v -> cl_orient s = vcross u v -> proper_axis (cl_orient s) ->
  0 < cl_radius r -> orthonormal x y -> cl_orient r = vcross x y -> proper_axis (cl_orient r) ->
  (forall t, off_ring (cl_orient s) (cl_loc s) (cl_radius s) (circle (cl_loc r) x y (cl_radius r) t)) ->
  (forall t, off_ring (cl_orient r) (cl_loc r) (cl_radius r) (circle (cl_loc s) u v (cl_radius s) t)) ->
  exists F G M, (forall p, off_ring (cl_orient s) (cl_loc s) (cl_radius s) p -> loop_vector_potential s "cartesian"%string p = Ok (F p)) /\
    (forall p, off_ring (cl_orient r) (cl_loc r) (cl_radius r) p -> loop_vector_potential r "cartesian"%string p = Ok (G p)) /\
    is_circle_circulation F (cl_loc r) x y (cl_radius r) (cl_mu s * cl_current s * M) /\ is_circle_circulation G (cl_loc s) u v (cl_radius s) (cl_mu r * cl_current r * M).
Proof.
  intros Ha HO Hn P Hb HX Hm Q O1 O2. set (g := ring_arc (cl_loc s) u v (cl_radius s)). set (h := ring_arc (cl_loc r) x y (cl_radius r)).
  assert (A : apart g h) by (apply (off_ring_apart _ _ _ _ (cl_orient s)); [assumption|assumption|assumption|]; intros t _; exact (O1 t)).
  exists (fun p => okv (loop_vector_potential s "cartesian"%string p)), (fun p => okv (loop_vector_potential r "cartesian"%string p)), (neu g h / (4 * PI)).
  split; [intros p Hp; exact (loop_ok s u v p Ha HO Hn P Hp)|]. split; [intros p Hp; exact (loop_ok r x y p Hb HX Hm Q Hp)|]. rewrite <- !mu4pi. unfold is_circle_circulation. split.
  - pose proof (arc_circ (cl_mu s * cl_current s / (4 * PI)) [g] (fun p => okv (loop_vector_potential s "cartesian"%string p)) h) as E. cbn [asum] in E. rewrite Rplus_0_r in E. apply E.
    + constructor; [apply ring_good|constructor].
    + apply ring_good.
    + intros g' [<-|[]]. exact A.
    + apply ring_link; try assumption. intros t _. exact (O1 t).
  - rewrite (neu_sym g h (ring_good _ _ _ _) (ring_good _ _ _ _) A).
    pose proof (arc_circ (cl_mu r * cl_current r / (4 * PI)) [h] (fun p => okv (loop_vector_potential r "cartesian"%string p)) g) as E. cbn [asum] in E. rewrite Rplus_0_r in E. apply E.
    + constructor; [apply ring_good|constructor].
    + apply ring_good.
    + intros g' [<-|[]]. apply apart_sym. exact A.
    + apply ring_link; try assumption. intros t _. exact (O2 t).
Qed.

(** *** dipole and wire, dipole and loop *)
Lemma md_A_dl m n c mu q dl : vdot (md_A (MD m n c mu) q) dl = m * mu / (4 * PI) * vdot n (biot_savart c dl q).
Proof.
  unfold md_A, biot_savart. cbn [md_loc md_moment md_orient md_mu]. rewrite (vnorm_sub_sym c q). set (r := vnorm (vsub q c)). unfold Rdiv. rewrite !Rinv_mult, <- !pow_inv.
  unfold vdiv, Rdiv. set (i := / r). set (k := / PI). set (f := / 4). destruct n as [n1 n2 n3], q as [q1 q2 q3], c as [c1 c2 c3], dl as [l1 l2 l3].
  unfold vscal, vcross, vsub, vdot; cbn. ring.
Qed.
Lemma circ_wire K F w k nodes : forall V, (forall dl q, vdot (F q) dl = k * vdot w (K dl q)) -> is_wire_integral K nodes V -> is_circulation F nodes (k * vdot w V).
Proof.
  induction nodes as [|a [|b rest] IH]; cbn [is_wire_integral is_circulation]; intros V H I; try (subst V; unfold vdot, vzero; cbn; ring).
  destruct I as [v [x [I1 [I2 ->]]]]. exists (k * vdot w v), (k * vdot w x). split; [|split; [exact (IH x H I2)|destruct w, v, x; unfold vdot, vadd; cbn; ring]].
  eapply is_RInt_ext; [|apply (is_RInt_scal (V:=R_NormedModule)), (vint_dot w _ _ I1)]. intros s _. symmetry. apply H.
Qed.
Lemma dipole_wire d w : proper_wire (lc_nodes w) -> every_segment (off_line (md_loc d)) (lc_nodes w) -> lc_mu w = md_mu d ->
  exists F J B, (forall p, mdipole_vector_potential d "cartesian"%string p = Ok (F p)) /\ is_circulation F (lc_nodes w) J /\
    lc_flux_density w (md_loc d) = Ok (Some B) /\ lc_current w * J = md_moment d * vdot (md_orient d) B.
Proof.
  intros P O E. destruct (line_biot_savart w (md_loc d) P O) as [V [HV EB]]. destruct d as [m n c mu]. cbn [md_loc md_mu md_moment md_orient] in *.
  exists (md_A (MD m n c mu)), (m * mu / (4 * PI) * vdot n V). eexists. split; [reflexivity|]. split; [|split; [exact EB|]].
  - apply (circ_wire (biot_savart c)); [|exact HV]. intros dl q. apply md_A_dl.
  - rewrite E. destruct n, V; unfold vdot, vscal, Rdiv; cbn. ring.
Qed.
Lemma circle_circ K F w k c u v a V : (forall dl q, vdot (F q) dl = k * vdot w (K dl q)) -> is_circle_integral K c u v a V -> is_circle_circulation F c u v a (k * vdot w V).
Proof.
  intros H [X [Y Z]]. unfold is_circle_circulation.
  pose proof (is_RInt_plus (V:=R_NormedModule) _ _ _ _ _ _ (is_RInt_plus (V:=R_NormedModule) _ _ _ _ _ _ (is_RInt_scal (V:=R_NormedModule) _ _ _ (vx w) _ X)
    (is_RInt_scal (V:=R_NormedModule) _ _ _ (vy w) _ Y)) (is_RInt_scal (V:=R_NormedModule) _ _ _ (vz w) _ Z)) as D.
  eapply is_RInt_ext; [|apply (is_RInt_scal (V:=R_NormedModule)); exact D]. intros s _. cbv beta. rewrite H. reflexivity.
Qed.
Lemma dipole_loop d s u v : 0 < cl_radius s -> orthonormal u v -> cl_orient s = vcross u v -> proper_axis (cl_orient s) ->
  off_ring (cl_orient s) (cl_loc s) (cl_radius s) (md_loc d) -> cl_mu s = md_mu d ->
  exists F J B, (forall p, mdipole_vector_potential d "cartesian"%string p = Ok (F p)) /\ is_circle_circulation F (cl_loc s) u v (cl_radius s) J /\
    loop_flux_density s "cartesian"%string (md_loc d) = Ok B /\ cl_current s * J = md_moment d * vdot (md_orient d) B.
Proof.
  intros Ha HO Hn P [O1 O2] E. destruct (loop_biot_savart s u v (md_loc d) Ha HO Hn P O1 O2) as [V [HV EB]]. destruct d as [m n c mu]. cbn [md_loc md_mu md_moment md_orient] in *.
  exists (md_A (MD m n c mu)), (m * mu / (4 * PI) * vdot n V). eexists. split; [reflexivity|]. split; [|split; [exact EB|]].
  - apply (circle_circ (biot_savart c)); [|exact HV]. intros dl q. apply md_A_dl.
  - rewrite E. destruct n, V; unfold vdot, vscal, Rdiv; cbn. ring.
Qed.
