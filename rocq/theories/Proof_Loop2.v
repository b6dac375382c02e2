(** C41-C43: from the loop's frame to space. *)
From Coq Require Import String Reals List Lra.
From Coquelicot Require Import Coquelicot.
From Verif Require Import Vec3 Calculus Deriv Integral Periodic CurveDeriv Numpy Model_Spatial Proof_Spatial Model_Static
  Spec_Static Spec_Loop Proof_Static Proof_Static2 Proof_Static3 Proof_Line Proof_Line3 Proof_Sphere Proof_Loop.
Import ListNotations.
Open Scope R_scope.

(** vector with cylindrical components [comp rho z], at the point q of the loop's frame *)
Definition hyp2 (x y : R) : R := sqrt (x ^ 2 + y ^ 2).
Definition local (comp : R -> R -> vec3) (q : vec3) : vec3 :=
  let c := comp (hyp2 (vx q) (vy q)) (vz q) in let phi := atan2 (vy q) (vx q) in
  V3 (vx c * cos phi - vy c * sin phi) (vx c * sin phi + vy c * cos phi) (vz c).

Lemma cl_frame comp s p M : rotation_matrix_v (cl_orient s) (V3 0 0 1) default_tol = Ok M ->
  cl_in_frame comp s p = Ok (mvec (mtrans M) (local comp (mvec M (vsub p (cl_loc s))))).
Proof.
  intro E. unfold cl_in_frame. rewrite E. cbn [rbind]. generalize (mvec M (vsub p (cl_loc s))). intros [x y z]. reflexivity.
Qed.

Lemma hyp2_pos x y : 0 < x ^ 2 + y ^ 2 -> 0 < hyp2 x y /\ hyp2 x y * hyp2 x y = x ^ 2 + y ^ 2.
Proof. intro H. unfold hyp2. split; [apply sqrt_lt_R0, H|apply sqrt_sqrt, Rlt_le, H]. Qed.

Lemma atan2_dir x y : 0 < x ^ 2 + y ^ 2 -> cos (atan2 y x) = x / hyp2 x y /\ sin (atan2 y x) = y / hyp2 x y.
Proof.
  intro H. destruct (hyp2_pos x y H) as [P _]. destruct (atan2_polar x y) as [A B]. fold (hyp2 x y) in A, B.
  split; [rewrite <- A at 2|rewrite <- B at 2]; field; lra.
Qed.

Lemma loop_rot n : proper_axis n -> exists M, rotation_matrix_v n (V3 0 0 1) default_tol = Ok M /\ is_rotation M /\ mvec M n = V3 0 0 1.
Proof.
  intros [N P].
  assert (N1 : vnorm (V3 0 0 1) = 1) by (apply vnorm_unique; [lra|]; unfold vnorm2; cbn; ring).
  assert (Z : V3 0 0 1 <> vzero) by (intro E; unfold vzero in E; apply V3_inj in E; lra).
  assert (NZ : n <> vzero) by (intro E; subst; rewrite vnorm_zero in N; lra).
  destruct (rotation_matrix_v_ok n (V3 0 0 1) default_tol NZ Z default_tol_pos) as [M [E [R [_ K]]]].
  exists M. split; [exact E|]. split; [exact R|]. rewrite !vunit_id in K by assumption. apply K. exact P.
Qed.

Lemma frame_height M n c p : is_rotation M -> mvec M n = V3 0 0 1 -> vz (mvec M (vsub p c)) = axis_height n c p.
Proof.
  intros R E. unfold axis_height. rewrite <- (rotation_dot M n (vsub p c) R), E. generalize (mvec M (vsub p c)); intros [x y z].
  unfold vdot; cbn. ring.
Qed.
Lemma frame_rho M n c p : is_rotation M -> mvec M n = V3 0 0 1 ->
  let q := mvec M (vsub p c) in hyp2 (vx q) (vy q) = axis_distance n c p.
Proof.
  intros R E. cbv zeta. unfold axis_distance. rewrite <- (rotation_norm M _ R), <- rotation_cross, E by exact R.
  generalize (mvec M (vsub p c)); intros [x y z]. unfold hyp2, vnorm, vnorm2, vcross; cbn [vx vy vz]. f_equal. ring.
Qed.

(** ** The local fields *)
Definition lA (a C : R) : vec3 -> vec3 := local (fun rho z => V3 0 (xA a C rho z) 0).

Lemma lA_dir a C x y z : 0 < x ^ 2 + y ^ 2 ->
  lA a C (V3 x y z) = V3 (- y * (xA a C (hyp2 x y) z / hyp2 x y)) (x * (xA a C (hyp2 x y) z / hyp2 x y)) 0.
Proof.
  intro H. destruct (atan2_dir x y H) as [A B]. unfold lA, local; cbn [vx vy vz]. rewrite A, B.
  destruct (hyp2_pos x y H) as [P _]. f_equal; field; lra.
Qed.

Section LA.
Variables a C x0 y0 z0 : R.
Hypothesis Ha : 0 < a.
Hypothesis Hr : 0 < x0 ^ 2 + y0 ^ 2.
Let rho := hyp2 x0 y0.
Hypothesis Off : 0 < (a - rho) ^ 2 + z0 ^ 2.
Let A0 := xA a C rho z0.
Let gz := - xBr a C rho z0 / rho.
Let g := A0 / rho.
Let gr := (cl_B_z a C rho z0 - A0 / rho) / rho - A0 / rho ^ 2.
Definition lA_J : mat3 :=
  M3 (V3 (- y0 * gr * x0 / rho) (- y0 * gr * y0 / rho - g) (- y0 * gz))
     (V3 (x0 * gr * x0 / rho + g) (x0 * gr * y0 / rho) (x0 * gz)) (V3 0 0 0).

Lemma hyp2_curve (x y : R -> R) (t dx dy : R) : x t = x0 -> y t = y0 -> is_derive x t dx -> is_derive y t dy ->
  is_derive (fun u => hyp2 (x u) (y u)) t ((x0 * dx + y0 * dy) / rho).
Proof.
  intros Ex Ey Dx Dy. destruct (hyp2_pos x0 y0 Hr) as [P _]. unfold rho. unfold hyp2 in *.
  eapply is_derive_eq; [der; rewrite Ex, Ey; exact Hr|]. rewrite Ex, Ey. cbn [INR Init.Nat.pred]. field. lra.
Qed.

Lemma g_curve (x y z : R -> R) (t dx dy dz : R) : x t = x0 -> y t = y0 -> z t = z0 -> is_derive x t dx -> is_derive y t dy -> is_derive z t dz ->
  is_derive (fun u => xA a C (hyp2 (x u) (y u)) (z u) / hyp2 (x u) (y u)) t (gr * ((x0 * dx + y0 * dy) / rho) + gz * dz).
Proof.
  intros Ex Ey Ez Dx Dy Dz. destruct (hyp2_pos x0 y0 Hr) as [P _]. fold rho in P.
  pose proof (hyp2_curve x y t dx dy Ex Ey Dx Dy) as Dr.
  assert (Er : hyp2 (x t) (y t) = rho) by (rewrite Ex, Ey; reflexivity).
  assert (DA := xA_curve a C (fun u => hyp2 (x u) (y u)) z t ((x0 * dx + y0 * dy) / rho) dz Ha). cbv beta in DA. rewrite Er, Ez in DA. specialize (DA P Off Dr Dz).
  eapply is_derive_eq; [apply (D_div (fun u => xA a C (hyp2 (x u) (y u)) (z u)) (fun u => hyp2 (x u) (y u))); [exact DA|exact Dr|cbv beta; rewrite Er; lra]|].
  rewrite Er, Ez. unfold gr, gz, A0. field. lra.
Qed.

Lemma lA_cjac : is_cjac (fun q => V3 (- vy q * (xA a C (hyp2 (vx q) (vy q)) (vz q) / hyp2 (vx q) (vy q)))
                                    (vx q * (xA a C (hyp2 (vx q) (vy q)) (vz q) / hyp2 (vx q) (vy q))) 0) (V3 x0 y0 z0) lA_J.
Proof.
  destruct (hyp2_pos x0 y0 Hr) as [P _]. fold rho in P.
  split; [|split]; intros x y z t dx dy dz Dx Dy Dz E; apply V3_inj in E; destruct E as [E1 [E2 E3]]; cbn [vx vy vz];
    pose proof (g_curve x y z t dx dy dz E1 E2 E3 Dx Dy Dz) as Dg.
  - eapply is_derive_eq; [der|]. rewrite E1, E2, E3. unfold lA_J, g, A0, vdot; cbn [m0 vx vy vz]. fold rho. match goal with |- ?u = ?v => change (@eq R u v) end. field. lra.
  - eapply is_derive_eq; [der|]. rewrite E1, E2, E3. unfold lA_J, g, A0, vdot; cbn [m1 vx vy vz]. fold rho. match goal with |- ?u = ?v => change (@eq R u v) end. field. lra.
  - eapply is_derive_eq; [der|]. unfold lA_J, vdot; cbn [m2 vx vy vz]. ring.
Qed.

Lemma lA_curl : curl_of lA_J = V3 (x0 / rho * xBr a C rho z0) (y0 / rho * xBr a C rho z0) (cl_B_z a C rho z0).
Proof.
  destruct (hyp2_pos x0 y0 Hr) as [P Q]. fold rho in P, Q. unfold lA_J, curl_of; cbn [m0 m1 m2 vx vy vz].
  f_equal.
  - unfold gz. field. lra.
  - unfold gz. field. lra.
  - replace (x0 * gr * x0 / rho + g - (- y0 * gr * y0 / rho - g)) with ((x0 ^ 2 + y0 ^ 2) * gr / rho + 2 * g) by (field; lra).
    rewrite <- Q. unfold gr, g. field. lra.
Qed.
Lemma lA_trace : mtrace lA_J = 0.
Proof. destruct (hyp2_pos x0 y0 Hr) as [P _]. fold rho in P. unfold lA_J, mtrace; cbn [m0 m1 m2 vx vy vz]. field. lra. Qed.
End LA.

(** ** C41 *)
Lemma near_lt_cont f p e : is_cont f p -> f p < e -> near p (fun q => f q < e).
Proof.
  intros H L. destruct (H (e - f p)) as [d [D0 D]]; [lra|]. exists d. split; [exact D0|]. intros q Hq.
  pose proof (D q Hq) as K. apply Rabs_def2 in K. lra.
Qed.
Lemma is_cont_scal k f p : is_cont f p -> is_cont (fun q => k * f q) p.
Proof.
  intro H. apply (is_cont_mult (fun _ => k) f p); [|exact H]. intros e He. exists 1. split; [lra|]. intros. rewrite Rminus_eq_0, Rabs_R0. exact He.
Qed.
Lemma is_cont_const k p : is_cont (fun _ => k) p.
Proof. intros e He. exists 1. split; [lra|]. intros. rewrite Rminus_eq_0, Rabs_R0. exact He. Qed.

Lemma is_cont_vdot w p0 p : is_cont (fun q => vdot w (vsub q p0)) p.
Proof.
  destruct (is_cont_coord p p0) as [A [B D]]. unfold vdot. apply is_cont_plus; [apply is_cont_plus|]; apply is_cont_scal; assumption.
Qed.

(** the frame quantity deciding the branch is a continuous function of the point *)
Lemma near_not_small M loc a p : 0 < a ->
  let rho q := hyp2 (vx (mvec M (vsub q loc))) (vy (mvec M (vsub q loc))) in let h q := vz (mvec M (vsub q loc)) in
  (a ^ 2 + h p ^ 2) / 10 ^ 6 < rho p ^ 2 -> near p (fun q => small_rho a (rho q) (h q) = false /\ 0 < rho q).
Proof.
  intros Ha rho h H.
  assert (R2 : forall q, rho q ^ 2 = vdot (m0 M) (vsub q loc) * vdot (m0 M) (vsub q loc) + vdot (m1 M) (vsub q loc) * vdot (m1 M) (vsub q loc)).
  { intro q. unfold rho, hyp2. rewrite pow2_sqrt; [unfold mvec; cbn [vx vy]; ring|]. nra. }
  assert (K : near p (fun q => (a ^ 2 + vdot (m2 M) (vsub q loc) * vdot (m2 M) (vsub q loc)) * / 10 ^ 6 +
     (-1) * (vdot (m0 M) (vsub q loc) * vdot (m0 M) (vsub q loc) + vdot (m1 M) (vsub q loc) * vdot (m1 M) (vsub q loc)) < 0)).
  { apply near_lt_cont.
    - apply (is_cont_plus (fun q => (a ^ 2 + vdot (m2 M) (vsub q loc) * vdot (m2 M) (vsub q loc)) * / 10 ^ 6)
        (fun q => (-1) * (vdot (m0 M) (vsub q loc) * vdot (m0 M) (vsub q loc) + vdot (m1 M) (vsub q loc) * vdot (m1 M) (vsub q loc)))).
      + apply is_cont_mult; [|apply is_cont_const]. apply (is_cont_plus (fun _ => a ^ 2)); [apply is_cont_const|]. apply is_cont_mult; apply is_cont_vdot.
      + apply is_cont_scal. apply is_cont_plus; apply is_cont_mult; apply is_cont_vdot.
    - rewrite <- R2. unfold h, mvec in H; cbn [vz] in H. unfold Rdiv in H. lra. }
  apply near_impl with (2 := K). intros q Hq. rewrite <- R2 in Hq. cbv zeta.
  assert (E : h q ^ 2 = vdot (m2 M) (vsub q loc) * vdot (m2 M) (vsub q loc)) by (unfold h, mvec; cbn [vz]; ring).
  rewrite <- E in Hq.
  assert (A2 : 0 < a ^ 2 + h q ^ 2) by (pose proof (pow2_ge_0 (h q)); assert (0 < a ^ 2) by (apply pow_lt; lra); lra).
  assert (T6 : 0 < / 10 ^ 6) by (apply Rinv_0_lt_compat, pow_lt; lra).
  assert (0 < (a ^ 2 + h q ^ 2) * / 10 ^ 6) by (apply Rmult_lt_0_compat; lra).
  assert (R0 : 0 < rho q).
  { assert (0 <= rho q) by apply sqrt_pos. destruct (Req_dec (rho q) 0) as [Z|Z]; [rewrite Z in Hq; lra|lra]. }
  split; [|exact R0].
  unfold small_rho. unfold Rltb. destruct (Rlt_dec _ _) as [L|L]; [|reflexivity]. exfalso.
  apply (Rmult_lt_compat_r (a ^ 2 + h q ^ 2)) in L; [|exact A2]. unfold Rdiv in L. rewrite Rmult_assoc, Rinv_l in L by lra. lra.
Qed.

Lemma branch_equiv a r h : 0 < a -> 1 / 10 ^ 6 < r ^ 2 / (a ^ 2 + h ^ 2) -> (a ^ 2 + h ^ 2) / 10 ^ 6 < r ^ 2.
Proof.
  intros Ha L. assert (A2 : 0 < a ^ 2 + h ^ 2) by (pose proof (pow2_ge_0 h); assert (0 < a ^ 2) by (apply pow_lt; lra); lra).
  apply (Rmult_lt_compat_r (a ^ 2 + h ^ 2)) in L; [|exact A2]. unfold Rdiv in L. rewrite (Rmult_assoc (r ^ 2)), Rinv_l in L by lra. unfold Rdiv. lra.
Qed.

Lemma off_wire a r h : ~ (r = a /\ h = 0) -> 0 < (a - r) ^ 2 + h ^ 2.
Proof.
  intro N. pose proof (pow2_ge_0 (a - r)). pose proof (pow2_ge_0 h).
  destruct (Req_dec ((a - r) ^ 2 + h ^ 2) 0) as [Z|Z]; [|lra]. exfalso. apply N. split; nra.
Qed.

Lemma loop_A_total s : proper_axis (cl_orient s) -> exists A : vec3 -> vec3, forall q, loop_vector_potential s "cartesian"%string q = Ok (A q).
Proof.
  intro P. destruct (loop_rot _ P) as [M [E [R _]]]. eexists. intro q. unfold loop_vector_potential.
  rewrite with_coordinates_cart by reflexivity. unfold cl_A. rewrite (cl_frame _ _ _ M E). reflexivity.
Qed.

Lemma loop_curl s p (A : vec3 -> vec3) : 0 < cl_radius s -> proper_axis (cl_orient s) ->
  (forall q, loop_vector_potential s "cartesian"%string q = Ok (A q)) ->
  let rho := axis_distance (cl_orient s) (cl_loc s) p in let h := axis_height (cl_orient s) (cl_loc s) p in
  1 / 10 ^ 6 < rho ^ 2 / (cl_radius s ^ 2 + h ^ 2) -> ~ (rho = cl_radius s /\ h = 0) ->
  (exists B, loop_flux_density s "cartesian"%string p = Ok B /\ is_curl A p B) /\ is_div A p 0.
Proof.
  intros Ha P TA rho h Br Off. destruct (loop_rot _ P) as [M [E [R Mn]]].
  pose proof (frame_rho M _ (cl_loc s) p R Mn) as Fr. pose proof (frame_height M _ (cl_loc s) p R Mn) as Fh. cbv zeta in Fr. fold rho in Fr. fold h in Fh.
  apply branch_equiv in Br; [|exact Ha]. apply off_wire in Off.
  set (C := cl_mu s * cl_current s / PI).
  set (q := mvec M (vsub p (cl_loc s))) in *.
  pose proof (near_not_small M (cl_loc s) (cl_radius s) p Ha) as Nr. cbv beta zeta in Nr. fold q in Nr. rewrite Fr, Fh in Nr. specialize (Nr Br).
  pose proof (near_self _ _ Nr) as [Sm R0]. cbv beta in Sm, R0. fold q in Sm, R0. rewrite Fr, Fh in Sm. rewrite Fr in R0.
  assert (HX : 0 < vx q ^ 2 + vy q ^ 2).
  { rewrite <- Fr in R0. unfold hyp2 in R0. destruct (Rle_lt_dec (vx q ^ 2 + vy q ^ 2) 0) as [Z|Z]; [|exact Z].
    rewrite sqrt_neg_0 in R0 by exact Z. lra. }
  set (lF := fun q => V3 (- vy q * (xA (cl_radius s) C (hyp2 (vx q) (vy q)) (vz q) / hyp2 (vx q) (vy q)))
                         (vx q * (xA (cl_radius s) C (hyp2 (vx q) (vy q)) (vz q) / hyp2 (vx q) (vy q))) 0).
  assert (Ext : near p (fun r => mvec (mtrans M) (lF (mvec M (vsub r (cl_loc s)))) = A r)).
  { apply near_impl with (2 := Nr). intros r [Sr Rr]. specialize (TA r). unfold loop_vector_potential in TA.
    rewrite with_coordinates_cart in TA by reflexivity. unfold cl_A in TA. rewrite (cl_frame _ _ _ M E) in TA. injection TA as TA. rewrite <- TA.
    f_equal. unfold local. set (qr := mvec M (vsub r (cl_loc s))) in *. cbn [vx vy vz]. rewrite cl_A_phi_exact by exact Sr.
    assert (HX' : 0 < vx qr ^ 2 + vy qr ^ 2).
    { unfold hyp2 in Rr. destruct (Rle_lt_dec (vx qr ^ 2 + vy qr ^ 2) 0) as [Z|Z]; [|exact Z]. rewrite sqrt_neg_0 in Rr by exact Z. lra. }
    destruct (atan2_dir _ _ HX') as [Cc Ss]. rewrite Cc, Ss. unfold lF. fold C. f_equal; field; lra. }
  assert (CJ : is_cjac lF q (lA_J (cl_radius s) C (vx q) (vy q) (vz q))).
  { replace q with (V3 (vx q) (vy q) (vz q)) at 1 by (destruct q; reflexivity). apply lA_cjac; [exact Ha|exact HX|].
    rewrite Fr, Fh. exact Off. }
  split.
  - eexists. split.
    + unfold loop_flux_density. rewrite with_loop_eq by (left; reflexivity). rewrite with_coordinates_cart by reflexivity.
      unfold cl_B. rewrite (cl_frame _ _ _ M E). reflexivity.
    + apply is_curl_ext_near with (1 := Ext).
      pose proof (curl_motion lF M (cl_loc s) p _ R CJ) as K. rewrite lA_curl in K by (try exact Ha; exact HX).
      match goal with |- is_curl _ _ ?b => match type of K with is_curl _ _ ?c => replace b with c; [exact K|] end end.
      f_equal. fold q. unfold local. cbn [vx vy vz]. rewrite Fr, Fh. rewrite cl_B_rho_exact by exact Sm. fold C.
      destruct (atan2_dir _ _ HX) as [Cc Ss]. rewrite Cc, Ss, Fr. f_equal; field; lra.
  - destruct (div_motion lF M (cl_loc s) p _ R CJ) as [J [JA JB]]. rewrite lA_trace in JB by exact HX.
    exists J. split; [eapply is_jac_ext_near; [exact Ext|exact JA]|exact JB].
Qed.
