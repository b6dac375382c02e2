(** Proofs about geoana/gravity.py: PointMass and Sphere. *)
From Coq Require Import Reals Lra List Bool.
From Coquelicot Require Import Coquelicot.
From Verif Require Import Vec3 Numpy Calculus Deriv Model_Gravity.
Import ListNotations.
Open Scope R_scope.

(** Close an algebraic goal about [x y z] and [r = |(x,y,z)|] *)
Ltac norm_field H :=
  let r := fresh "r" in
  let Hr := fresh "Hr" in
  let Hp := fresh "Hp" in
  match type of H with
  | V3 ?x ?y ?z <> vzero =>
      pose proof (vnorm_pos _ H) as Hp;
      assert (Hr : vnorm (V3 x y z) ^ 2 = x ^ 2 + y ^ 2 + z ^ 2)
        by (rewrite pow_2, vnorm_sqr; unfold vnorm2; simpl; ring);
      set (r := vnorm (V3 x y z)) in *; clearbody r;
      first [ solve [field; repeat split; lra]
            | field_simplify_eq; [ ring [Hr] | repeat split; lra ] ]
  end.

Ltac norm_side H := pose proof (vnorm_pos _ H); try (apply Rgt_not_eq; repeat apply Rmult_lt_0_compat; try apply pow_lt; lra).

Lemma pm_field_is_grad s p : vsub p (pm_loc s) <> vzero -> is_grad (pm_potential s) p (pm_field s p).
Proof.
  intro H. unfold pm_potential, pm_field.
  apply (is_grad_shift (fun d => G_newton * pm_mass s / vnorm d)).
  destruct (vsub p (pm_loc s)) as [x y z] eqn:E.
  pose proof (norm_dx x y z H). pose proof (norm_dy x y z H). pose proof (norm_dz x y z H).
  split_grad; (eapply is_derive_eq; [der; norm_side H | norm_field H]).
Qed.

Lemma pm_gradient_is_jac s p : vsub p (pm_loc s) <> vzero -> is_jac (pm_field s) p (pm_gradient s p).
Proof.
  intro H. unfold pm_gradient, pm_field.
  apply (is_jac_shift (fun r_vec => let r := vnorm r_vec in
     let r_hat := V3 (vx r_vec / r) (vy r_vec / r) (vz r_vec / r) in
     let c := - G_newton * pm_mass s in
     V3 (c * vx r_hat / r ^ 2) (c * vy r_hat / r ^ 2) (c * vz r_hat / r ^ 2))).
  destruct (vsub p (pm_loc s)) as [x y z] eqn:E.
  pose proof (norm_dx x y z H). pose proof (norm_dy x y z H). pose proof (norm_dz x y z H).
  split_jac; (eapply is_derive_eq; [der; norm_side H | cbn [INR pred]; norm_field H]).
Qed.

Lemma pm_gradient_sym s p : msym (pm_gradient s p).
Proof.
  unfold msym, pm_gradient, mtrans; cbn. 
  repeat (f_equal; try ring).
Qed.

Lemma pm_gradient_trace s p : vsub p (pm_loc s) <> vzero -> mtrace (pm_gradient s p) = 0.
Proof.
  intro H. unfold mtrace, pm_gradient; destruct (vsub p (pm_loc s)) as [x y z] eqn:E; cbn [vx vy vz m0 m1 m2].
  norm_field H.
Qed.

(** *** Sphere: pointwise form of the masked evaluation *)
Definition gs_potential_pt (s : grav_sphere) (p : vec3) : R :=
  if Rltb (gs_radius s) (vnorm (vsub p (gs_loc s)))
  then pm_potential (gs_as_point_mass s) p
  else G_newton * 2 / 3 * PI * gs_rho s * (3 * gs_radius s ^ 2 - vnorm (vsub p (gs_loc s)) ^ 2).

Definition gs_field_pt (s : grav_sphere) (p : vec3) : vec3 :=
  if Rltb (gs_radius s) (vnorm (vsub p (gs_loc s)))
  then pm_field (gs_as_point_mass s) p
  else vscal (- G_newton * 4 / 3 * PI * gs_rho s) (vsub p (gs_loc s)).

Definition gs_gradient_pt (s : grav_sphere) (p : vec3) : option mat3 :=
  let r := vnorm (vsub p (gs_loc s)) in
  if Reqb r (gs_radius s) then None
  else if Rltb (gs_radius s) r then Some (pm_gradient (gs_as_point_mass s) p)
  else Some (mscal (- G_newton * 4 / 3 * PI * gs_rho s) mid).

Lemma gs_potential_grid_pt s xyz : gs_potential_grid s xyz = Ok (map (gs_potential_pt s) xyz).
Proof.
  unfold gs_potential_grid, pm_potential_grid. cbv zeta. rewrite !map_map.
  rewrite (mask_assign_pointwise (fun p => Rltb (gs_radius s) (vnorm (vsub p (gs_loc s)))) (pm_potential (gs_as_point_mass s)) (fun _ => 0)).
  cbn [rbind]. rewrite mask_select_map, map_map.
  rewrite (mask_assign_pointwise (fun p => negb (Rltb (gs_radius s) (vnorm (vsub p (gs_loc s)))))).
  f_equal. apply map_ext. intro p. unfold gs_potential_pt.
  destruct (Rltb _ _); reflexivity.
Qed.

Lemma gs_field_grid_pt s xyz : gs_field_grid s xyz = Ok (map (gs_field_pt s) xyz).
Proof.
  unfold gs_field_grid, pm_field_grid. cbv zeta. rewrite !map_map.
  rewrite (mask_assign_pointwise (fun p => Rltb (gs_radius s) (vnorm (vsub p (gs_loc s)))) (pm_field (gs_as_point_mass s)) (fun _ => vzero)).
  cbn [rbind]. rewrite mask_select_map, map_map.
  rewrite (mask_assign_pointwise (fun p => negb (Rltb (gs_radius s) (vnorm (vsub p (gs_loc s)))))).
  f_equal. apply map_ext. intro p. unfold gs_field_pt.
  destruct (Rltb _ _); reflexivity.
Qed.

Lemma gs_gradient_grid_pt s xyz : gs_gradient_grid s xyz = Ok (map (gs_gradient_pt s) xyz).
Proof.
  unfold gs_gradient_grid, pm_gradient_grid. cbv zeta. rewrite !map_map.
  rewrite (mask_assign_pointwise (fun p => Rltb (gs_radius s) (vnorm (vsub p (gs_loc s)))) (fun p => Some (pm_gradient (gs_as_point_mass s) p)) (fun _ => Some (M3 vzero vzero vzero))).
  cbn [rbind].
  rewrite (mask_fill_pointwise (fun p => negb (Rltb (gs_radius s) (vnorm (vsub p (gs_loc s)))))).
  cbn [rbind].
  rewrite (mask_fill_pointwise (fun p => Reqb (vnorm (vsub p (gs_loc s))) (gs_radius s))).
  f_equal. apply map_ext. intro p. unfold gs_gradient_pt.
  destruct (Reqb _ _); [reflexivity|]. destruct (Rltb _ _); reflexivity.
Qed.

Lemma eval1_map {P A} (d : A) (f : list P -> result (list A)) (g : P -> A) :
  (forall xs, f xs = Ok (map g xs)) -> forall p, eval1 d f p = g p.
Proof. intros H p. unfold eval1. rewrite H. reflexivity. Qed.

Lemma gs_outside_pot s p : gs_radius s < vnorm (vsub p (gs_loc s)) -> gs_potential_pt s p = pm_potential (gs_as_point_mass s) p.
Proof. intro H. unfold gs_potential_pt. apply Rltb_true in H. rewrite H. reflexivity. Qed.
Lemma gs_outside_field s p : gs_radius s < vnorm (vsub p (gs_loc s)) -> gs_field_pt s p = pm_field (gs_as_point_mass s) p.
Proof. intro H. unfold gs_field_pt. apply Rltb_true in H. rewrite H. reflexivity. Qed.

Lemma gs_loc_neq s p : 0 <= gs_radius s -> gs_radius s < vnorm (vsub p (gs_loc s)) -> vsub p (gs_loc s) <> vzero.
Proof. intros Hr H E. rewrite E, vnorm_zero in H. lra. Qed.

Lemma gs_field_is_grad_out s p : 0 <= gs_radius s -> gs_radius s < vnorm (vsub p (gs_loc s)) ->
  is_grad (gs_potential_pt s) p (gs_field_pt s p).
Proof.
  intros Hr H. rewrite (gs_outside_field s p H).
  apply (is_grad_ext_near (pm_potential (gs_as_point_mass s))).
  - eapply near_impl; [|apply (near_norm_gt _ _ _ H)]. intros q Hq; cbv beta in Hq. symmetry. apply gs_outside_pot. exact Hq.
  - apply pm_field_is_grad. apply (gs_loc_neq s p Hr H).
Qed.

Lemma sq_norm_grad p p0 c k : is_grad (fun q => c * (k - vnorm (vsub q p0) ^ 2)) p (vscal (-2 * c) (vsub p p0)).
Proof.
  apply (is_grad_shift (fun d => c * (k - vnorm d ^ 2))).
  destruct (vsub p p0) as [x y z].
  unfold vscal; split_grad.
  - apply (D_ext (fun t => c * (k - (t * t + y * y + z * z)))).
    { intro t. rewrite pow_2, vnorm_sqr. reflexivity. }
    eapply is_derive_eq; [der|ring].
  - apply (D_ext (fun t => c * (k - (x * x + t * t + z * z)))).
    { intro t. rewrite pow_2, vnorm_sqr. reflexivity. }
    eapply is_derive_eq; [der|ring].
  - apply (D_ext (fun t => c * (k - (x * x + y * y + t * t)))).
    { intro t. rewrite pow_2, vnorm_sqr. reflexivity. }
    eapply is_derive_eq; [der|ring].
Qed.

Lemma gs_field_is_grad_in s p : vnorm (vsub p (gs_loc s)) < gs_radius s -> is_grad (gs_potential_pt s) p (gs_field_pt s p).
Proof.
  intros H.
  set (c := G_newton * 2 / 3 * PI * gs_rho s).
  assert (E : gs_field_pt s p = vscal (-2 * c) (vsub p (gs_loc s))).
  { unfold gs_field_pt. rewrite (proj2 (Rltb_false _ _)) by lra. unfold vscal, c. destruct (vsub p (gs_loc s)); veq; field. }
  rewrite E.
  apply (is_grad_ext_near (fun q => c * (3 * gs_radius s ^ 2 - vnorm (vsub q (gs_loc s)) ^ 2))).
  - eapply near_impl; [|apply (near_norm_lt _ _ _ H)]. intros q Hq; cbv beta in Hq.
    unfold gs_potential_pt. rewrite (proj2 (Rltb_false _ _)) by lra. reflexivity.
  - apply sq_norm_grad.
Qed.

Lemma gs_gradient_is_jac s p J : 0 <= gs_radius s -> gs_gradient_pt s p = Some J -> is_jac (gs_field_pt s) p J.
Proof.
  intros Hr H. unfold gs_gradient_pt in H. cbv zeta in H.
  destruct (Reqb _ _) eqn:B; [discriminate|]. apply Reqb_false in B.
  destruct (Rltb _ _) eqn:L.
  - apply Rltb_true in L. injection H as <-.
    apply (is_jac_ext_near (pm_field (gs_as_point_mass s))).
    + eapply near_impl; [|apply (near_norm_gt _ _ _ L)]. intros q Hq; cbv beta in Hq. symmetry; apply gs_outside_field; exact Hq.
    + apply pm_gradient_is_jac. apply (gs_loc_neq s p Hr L).
  - apply Rltb_false in L. injection H as <-.
    set (c := - G_newton * 4 / 3 * PI * gs_rho s).
    assert (L' : vnorm (vsub p (gs_loc s)) < gs_radius s) by lra.
    apply (is_jac_ext_near (fun q => vscal c (vsub q (gs_loc s)))).
    + eapply near_impl; [|apply (near_norm_lt _ _ _ L')]. intros q Hq; cbv beta in Hq.
      unfold gs_field_pt. rewrite (proj2 (Rltb_false _ _)) by lra. reflexivity.
    + unfold vscal, vsub; destruct p as [x y z], (gs_loc s) as [a b d]; cbn [vx vy vz].
      split_jac; (eapply is_derive_eq; [der|unfold mid, c; cbn; ring]).
Qed.

Lemma gs_gradient_trace s p J : 0 <= gs_radius s -> gs_gradient_pt s p = Some J ->
  mtrace J = if Rltb (vnorm (vsub p (gs_loc s))) (gs_radius s) then - 4 * PI * G_newton * gs_rho s else 0.
Proof.
  intros Hr H. unfold gs_gradient_pt in H. cbv zeta in H.
  destruct (Reqb _ _) eqn:B; [discriminate|]. apply Reqb_false in B.
  destruct (Rltb (gs_radius s) _) eqn:L.
  - apply Rltb_true in L. injection H as <-. rewrite (proj2 (Rltb_false _ _)) by lra.
    apply pm_gradient_trace. apply (gs_loc_neq s p Hr L).
  - apply Rltb_false in L. injection H as <-. rewrite (proj2 (Rltb_true _ _)) by lra.
    unfold mtrace, mscal, mid, vscal; cbn. field.
Qed.

(** continuity across the surface *)
Lemma gs_potential_cont s p : 0 < gs_radius s -> is_cont (gs_potential_pt s) p.
Proof.
  intro HR.
  set (h := fun t => if Rlt_dec (gs_radius s) t then G_newton * gs_mass s / t
                     else G_newton * 2 / 3 * PI * gs_rho s * (3 * gs_radius s ^ 2 - t ^ 2)).
  apply (is_cont_ext (fun q => h (vnorm (vsub q (gs_loc s))))).
  { intro q. unfold h, gs_potential_pt, pm_potential, Rltb, gs_as_point_mass; cbn.
    destruct (Rlt_dec _ _); reflexivity. }
  apply is_cont_radial. apply glue_continuous.
  - intro L. apply (derive_continuity (fun t => G_newton * gs_mass s / t)) with (d := (0 * vnorm (vsub p (gs_loc s)) - G_newton * gs_mass s * 1) / (vnorm (vsub p (gs_loc s)) * vnorm (vsub p (gs_loc s)))). der. lra.
  - intro L. eapply derive_continuity. der.
  - unfold gs_mass. field. lra.
Qed.

Lemma gs_field_cont s p : 0 < gs_radius s ->
  is_cont (fun q => vx (gs_field_pt s q)) p /\ is_cont (fun q => vy (gs_field_pt s q)) p /\ is_cont (fun q => vz (gs_field_pt s q)) p.
Proof.
  intro HR.
  set (h := fun t => if Rlt_dec (gs_radius s) t then - G_newton * gs_mass s / t ^ 3
                     else - G_newton * 4 / 3 * PI * gs_rho s).
  assert (H : is_cont (fun q => h (vnorm (vsub q (gs_loc s)))) p).
  { apply is_cont_radial. apply glue_continuous.
    - intro L. eapply derive_continuity. der. apply pow_nonzero; lra.
    - intro L. eapply derive_continuity. der.
    - unfold gs_mass. field. lra. }
  destruct (is_cont_coord p (gs_loc s)) as [A [B C]].
  assert (K : forall q, gs_field_pt s q = vscal (h (vnorm (vsub q (gs_loc s)))) (vsub q (gs_loc s))).
  { intro q. unfold gs_field_pt, h, Rltb, pm_field, gs_as_point_mass; cbn [pm_mass pm_loc].
    destruct (Rlt_dec _ _); [|reflexivity].
    set (rr := vnorm _) in *. set (d := vsub _ _) in *. unfold vscal; veq; field; lra. }
  split; [|split].
  - eapply is_cont_ext; [intro q; rewrite (K q); reflexivity|]. unfold vscal; cbn [vx]. apply (is_cont_mult _ _ _ H A).
  - eapply is_cont_ext; [intro q; rewrite (K q); reflexivity|]. unfold vscal; cbn [vy]. apply (is_cont_mult _ _ _ H B).
  - eapply is_cont_ext; [intro q; rewrite (K q); reflexivity|]. unfold vscal; cbn [vz]. apply (is_cont_mult _ _ _ H C).
Qed.

Lemma vsub_neq p p0 : p <> p0 -> vsub p p0 <> vzero.
Proof.
  intros H E. apply H. destruct p, p0. unfold vsub, vzero in E; simpl in E. injection E as A B C.
  f_equal; lra.
Qed.

Lemma msym_curl J : msym J -> vzero = curl_of J.
Proof.
  unfold msym, mtrans. intro S. destruct J as [[a b c] [d e f] [g h i]]; cbn in S.
  assert (A := f_equal (fun m => vy (m0 m)) S). assert (B := f_equal (fun m => vz (m0 m)) S). assert (C := f_equal (fun m => vz (m1 m)) S).
  cbn in A, B, C. subst. unfold curl_of, vzero; cbn. f_equal; ring.
Qed.

Lemma pm_div_curl s p : p <> pm_loc s -> is_div (pm_field s) p 0 /\ is_curl (pm_field s) p vzero.
Proof.
  intro H. apply vsub_neq in H. pose proof (pm_gradient_is_jac s p H) as J. split.
  - exists (pm_gradient s p). split; [exact J|]. symmetry; apply pm_gradient_trace; exact H.
  - exists (pm_gradient s p). split; [exact J|].
    apply msym_curl. apply pm_gradient_sym.
Qed.

Lemma G_newton_pos : 0 < G_newton.
Proof. unfold G_newton; lra. Qed.

Lemma pm_inverse_square s p : p <> pm_loc s ->
    pm_potential s p * vnorm (vsub p (pm_loc s)) = G_newton * pm_mass s /\
    vnorm (pm_field s p) = G_newton * Rabs (pm_mass s) / vnorm (vsub p (pm_loc s)) ^ 2 /\
    vdot (pm_field s p) (vsub p (pm_loc s)) = - (G_newton * pm_mass s / vnorm (vsub p (pm_loc s))).
Proof.
  intro H. apply vsub_neq in H. pose proof (vnorm_pos _ H) as P. pose proof (vnorm_sqr (vsub p (pm_loc s))) as Q.
  unfold pm_potential, pm_field. set (r := vnorm _) in *. 
  set (d := vsub p (pm_loc s)) in *. split; [|split].
  - field; lra.
  - replace (V3 _ _ _) with (vscal (- G_newton * pm_mass s / r ^ 3) d).
    2:{ unfold vscal; veq; field; lra. }
    rewrite vnorm_scal. fold r. unfold Rdiv. rewrite Rabs_mult, Rabs_mult, Rabs_Ropp, (Rabs_pos_eq G_newton) by (left; apply G_newton_pos).
    rewrite (Rabs_pos_eq (/ r ^ 3)) by (left; apply Rinv_0_lt_compat, pow_lt; exact P). field; lra.
  - unfold vdot; cbn [vx vy vz]. unfold vnorm2 in Q. 
    field_simplify_eq; [|lra]. replace (r ^ 3) with (r * (r * r)) by ring. 
    replace (r ^ 2) with (r * r) by ring. rewrite Q. ring.
Qed.

Lemma pm_witness : V3 1 2 2 <> pm_loc (PM 5 vzero) /\ pm_potential (PM 5 vzero) (V3 1 2 2) = G_newton * 5 / 3.
Proof.
  split; [cbn; intro E; injection E; intros; lra|].
  unfold pm_potential; cbn. replace (vnorm _) with 3; [reflexivity|].
  symmetry; apply vnorm_unique; [lra|]. unfold vnorm2; cbn; ring.
Qed.

Lemma gs_grid_pointwise s grid :
    gs_potential_grid s grid = Ok (map (eval1 0 (gs_potential_grid s)) grid) /\
    gs_field_grid s grid = Ok (map (eval1 vzero (gs_field_grid s)) grid) /\
    gs_gradient_grid s grid = Ok (map (eval1 None (gs_gradient_grid s)) grid).
Proof.
  rewrite gs_potential_grid_pt, gs_field_grid_pt, gs_gradient_grid_pt.
  split; [|split]; f_equal; apply map_ext; intro p; symmetry.
  - apply (eval1_map 0 _ _ (gs_potential_grid_pt s)).
  - apply (eval1_map vzero _ _ (gs_field_grid_pt s)).
  - apply (eval1_map None _ _ (gs_gradient_grid_pt s)).
Qed.

Lemma gs_outside_all s p : 0 < gs_radius s -> gs_radius s < vnorm (vsub p (gs_loc s)) ->
    let pm := PM (4 / 3 * PI * gs_radius s ^ 3 * gs_rho s) (gs_loc s) in
    eval1 0 (gs_potential_grid s) p = pm_potential pm p /\
    eval1 vzero (gs_field_grid s) p = pm_field pm p /\
    eval1 None (gs_gradient_grid s) p = Some (pm_gradient pm p).
Proof.
  intros HR H pm.
  rewrite (eval1_map 0 _ _ (gs_potential_grid_pt s)), (eval1_map vzero _ _ (gs_field_grid_pt s)), (eval1_map None _ _ (gs_gradient_grid_pt s)).
  split; [apply gs_outside_pot; exact H|]. split; [apply gs_outside_field; exact H|].
  unfold gs_gradient_pt; cbv zeta. rewrite (proj2 (Reqb_false _ _)) by lra. apply Rltb_true in H. rewrite H. reflexivity.
Qed.

Lemma gs_continuous_all s p : 0 < gs_radius s ->
    is_cont (eval1 0 (gs_potential_grid s)) p /\
    is_cont (fun q => vx (eval1 vzero (gs_field_grid s) q)) p /\
    is_cont (fun q => vy (eval1 vzero (gs_field_grid s) q)) p /\
    is_cont (fun q => vz (eval1 vzero (gs_field_grid s) q)) p.
Proof.
  intro HR. destruct (gs_field_cont s p HR) as [A [B C]].
  split; [|split; [|split]].
  - apply (is_cont_ext (gs_potential_pt s)); [|apply gs_potential_cont; exact HR].
    intro q. rewrite (eval1_map 0 _ _ (gs_potential_grid_pt s)); reflexivity.
  - eapply is_cont_ext; [|exact A]. intro q; cbv beta. rewrite (eval1_map vzero _ _ (gs_field_grid_pt s)); reflexivity.
  - eapply is_cont_ext; [|exact B]. intro q; cbv beta. rewrite (eval1_map vzero _ _ (gs_field_grid_pt s)); reflexivity.
  - eapply is_cont_ext; [|exact C]. intro q; cbv beta. rewrite (eval1_map vzero _ _ (gs_field_grid_pt s)); reflexivity.
Qed.

(** gluing two functions with the same value and the same derivative at the seam *)
Lemma glue_derive (f g : R -> R) (P : R -> bool) (x d : R) :
  is_derive f x d -> is_derive g x d -> f x = g x -> is_derive (fun t => if P t then f t else g t) x d.
Proof.
  intros F G E. apply is_derive_Reals. apply is_derive_Reals in F, G.
  intros eps He. destruct (F eps He) as [d1 H1], (G eps He) as [d2 H2].
  assert (Hm : 0 < Rmin d1 d2) by (apply Rmin_pos; apply cond_pos).
  exists (mkposreal _ Hm). intros h Hh Hl. cbn in Hl.
  assert (L1 : Rabs h < d1) by (eapply Rlt_le_trans; [exact Hl|apply Rmin_l]).
  assert (L2 : Rabs h < d2) by (eapply Rlt_le_trans; [exact Hl|apply Rmin_r]).
  specialize (H1 h Hh L1). specialize (H2 h Hh L2).
  destruct (P (x + h)), (P x); try rewrite E; try rewrite <- E; auto; rewrite <- E in *; auto.
Qed.

Lemma glue_grad (f g : vec3 -> R) (P : vec3 -> bool) p d :
  is_grad f p d -> is_grad g p d -> f p = g p -> is_grad (fun q => if P q then f q else g q) p d.
Proof.
  intros [A [B C]] [A' [B' C']] E. destruct p as [x y z]. unfold is_grad, is_dx, is_dy, is_dz in *; cbn [vx vy vz] in *.
  split; [|split].
  - apply (glue_derive (fun t => f (V3 t y z)) (fun t => g (V3 t y z)) (fun t => P (V3 t y z))); assumption.
  - apply (glue_derive (fun t => f (V3 x t z)) (fun t => g (V3 x t z)) (fun t => P (V3 x t z))); assumption.
  - apply (glue_derive (fun t => f (V3 x y t)) (fun t => g (V3 x y t)) (fun t => P (V3 x y t))); assumption.
Qed.

Lemma gs_field_is_grad_all s p : 0 < gs_radius s ->
  is_grad (eval1 0 (gs_potential_grid s)) p (eval1 vzero (gs_field_grid s) p).
Proof.
  intro HR. rewrite (eval1_map vzero _ _ (gs_field_grid_pt s)).
  apply (is_grad_ext_near (gs_potential_pt s)).
  { exists 1; split; [lra|]; intros; rewrite (eval1_map 0 _ _ (gs_potential_grid_pt s)); reflexivity. }
  destruct (Rtotal_order (vnorm (vsub p (gs_loc s))) (gs_radius s)) as [L|[L|L]].
  - apply gs_field_is_grad_in; exact L.
  - unfold gs_potential_pt at 1.
    assert (N : vsub p (gs_loc s) <> vzero) by (intro E; rewrite E, vnorm_zero in L; lra).
    assert (F : gs_field_pt s p = vscal (- G_newton * 4 / 3 * PI * gs_rho s) (vsub p (gs_loc s))).
    { unfold gs_field_pt. rewrite (proj2 (Rltb_false _ _)) by lra. reflexivity. }
    rewrite F.
    apply (glue_grad (pm_potential (gs_as_point_mass s)) _ (fun q => Rltb (gs_radius s) (vnorm (vsub q (gs_loc s))))).
    + replace (vscal _ _) with (pm_field (gs_as_point_mass s) p); [apply pm_field_is_grad; exact N|].
      unfold pm_field, gs_as_point_mass, gs_mass; cbn [pm_mass pm_loc]. rewrite L.
      set (dd := vsub _ _). unfold vscal; veq; field; lra.
    + replace (vscal _ _) with (vscal (-2 * (G_newton * 2 / 3 * PI * gs_rho s)) (vsub p (gs_loc s))) by (unfold vscal; veq; field).
      apply sq_norm_grad.
    + unfold pm_potential, gs_as_point_mass, gs_mass; cbn [pm_mass pm_loc]. rewrite L. field. lra.
  - apply gs_field_is_grad_out; lra.
Qed.

Lemma gs_poisson_all s p : 0 < gs_radius s ->
    let r := vnorm (vsub p (gs_loc s)) in
    match eval1 None (gs_gradient_grid s) p with
    | Some J =>
        r <> gs_radius s /\ is_jac (eval1 vzero (gs_field_grid s)) p J /\ msym J /\
        (r < gs_radius s -> mtrace J = - 4 * PI * G_newton * gs_rho s) /\
        (r > gs_radius s -> mtrace J = 0)
    | None => r = gs_radius s
    end.
Proof.
  intros HR r. rewrite (eval1_map None _ _ (gs_gradient_grid_pt s)).
  destruct (gs_gradient_pt s p) as [J|] eqn:E.
  - split.
    { intro Q. unfold gs_gradient_pt in E. cbv zeta in E. fold r in E. apply Reqb_true in Q. rewrite Q in E. discriminate. }
    split.
    { apply (is_jac_ext_near (gs_field_pt s)).
      - exists 1; split; [lra|]; intros; rewrite (eval1_map vzero _ _ (gs_field_grid_pt s)); reflexivity.
      - apply gs_gradient_is_jac; [lra|exact E]. }
    split.
    { unfold gs_gradient_pt in E. cbv zeta in E. destruct (Reqb _ _); [discriminate|].
      destruct (Rltb _ _); injection E as <-; [apply pm_gradient_sym|].
      unfold msym, mtrans, mscal, mid, vscal; cbn. repeat (f_equal; try ring). }
    pose proof (gs_gradient_trace s p J (Rlt_le _ _ HR) E) as T. fold r in T. split; intro L.
    + rewrite (proj2 (Rltb_true _ _)) in T by exact L. exact T.
    + rewrite (proj2 (Rltb_false _ _)) in T by lra. exact T.
  - unfold gs_gradient_pt in E. cbv zeta in E. fold r in E.
    destruct (Reqb r (gs_radius s)) eqn:Q; [apply Reqb_true; exact Q|]. destruct (Rltb _ _); discriminate.
Qed.

Lemma gs_witness :
  let s := GS 2 3 (V3 1 0 0) in
  0 < gs_radius s /\ gs_radius s < vnorm (vsub (V3 1 0 5) (gs_loc s)) /\
  vnorm (vsub (V3 1 0 1) (gs_loc s)) < gs_radius s /\
  eval1 0 (gs_potential_grid s) (V3 1 0 1) = 22 * PI * G_newton.
Proof.
  cbv zeta. rewrite (eval1_map 0 _ _ (gs_potential_grid_pt _)).
  unfold gs_potential_pt; cbn [gs_radius gs_loc gs_rho].
  replace (vsub (V3 1 0 5) (V3 1 0 0)) with (V3 0 0 5) by (veq; ring).
  replace (vsub (V3 1 0 1) (V3 1 0 0)) with (V3 0 0 1) by (veq; ring).
  rewrite !vnorm_axis_z, !Rabs_pos_eq by lra.
  rewrite (proj2 (Rltb_false _ _)) by lra. repeat split; try lra.
Qed.
