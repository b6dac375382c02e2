(** The harmonic magnetic dipole on a half-space (C64). *)
From Coq Require Import Reals Lra List Bool String.
From Coquelicot Require Import Coquelicot.
From Verif Require Import Vec3 Calculus Deriv Cplx CplxTaylor Radial Numpy Model_Spatial Model_Static Model_FDEM
  Proof_Static2 Proof_FDEM Proof_FDEM2 Proof_FDEM3 Proof_FDEM4 Proof_Loop2.
Open Scope R_scope.

Ltac push := cbn [pow]; repeat (rewrite RtoC_mult || rewrite RtoC_plus || rewrite RtoC_minus || rewrite RtoC_opp
  || (rewrite RtoC_div by (solve [repeat apply Rmult_integral_contrapositive_currified; lra]))).

Section HS.
  Variable iv kv : nat -> C -> C.
  Variable mu_0 : R.

  (** the Bessel combination k^2 (I1 K1 - I2 K2) *)
  Definition mh_g (k : C) (r : R) : C :=
    let alpha := (Ci * k * r / 2)%C in
    (k ^ 2 * (iv 1 alpha * kv 1 alpha - iv 2 alpha * kv 2 alpha))%C.

  (** vector form of the total field without the factor moment/(4 pi) *)
  Definition mh_vec (k : C) (sx sy sz x y : R) : cvec :=
    let r := sqrt (x ^ 2 + y ^ 2) in
    let md := sx * x + sy * y in
    let a := (- (mh_phi k r / RtoC r))%C in
    let b := ((mh_phi k r - r * mh_dphi_dr k r) / RtoC (r ^ 3))%C in
    CV (RtoC (sz * x) * (mh_g k r / RtoC (r ^ 2)) + a * RtoC sx + b * RtoC (md * x))%C
       (RtoC (sz * y) * (mh_g k r / RtoC (r ^ 2)) + a * RtoC sy + b * RtoC (md * y))%C
       (RtoC sz * mh_hz k r - RtoC md * (mh_g k r / RtoC (r ^ 2)))%C.

  (** the static dipole field in the plane of the dipole, without moment/(4 pi) *)
  Definition mh_prim (sx sy sz x y : R) : vec3 :=
    let r := sqrt (x ^ 2 + y ^ 2) in
    let md := sx * x + sy * y in
    V3 (3 * x * md / r ^ 5 - sx / r ^ 3) (3 * y * md / r ^ 5 - sy / r ^ 3) (- sz / r ^ 3).

  Definition off (s : mhalf) (p : vec3) : Prop := vx p <> vx (mh_loc s) \/ vy p <> vy (mh_loc s).

  Lemma off_pos s p : off s p ->
    0 < sqrt ((vx p - vx (mh_loc s)) ^ 2 + (vy p - vy (mh_loc s)) ^ 2) /\
    sqrt ((vx p - vx (mh_loc s)) ^ 2 + (vy p - vy (mh_loc s)) ^ 2) * sqrt ((vx p - vx (mh_loc s)) ^ 2 + (vy p - vy (mh_loc s)) ^ 2)
     = (vx p - vx (mh_loc s)) ^ 2 + (vy p - vy (mh_loc s)) ^ 2.
  Proof.
    intro H. apply sqrt_sq_pos.
    assert (A : vx p - vx (mh_loc s) <> 0 \/ vy p - vy (mh_loc s) <> 0) by (destruct H; [left|right]; lra).
    generalize dependent (vx p - vx (mh_loc s)). generalize (vy p - vy (mh_loc s)). intros y x [A|A]; nra.
  Qed.

  Lemma mh_form s sec p : off s p ->
    let x := vx p - vx (mh_loc s) in let y := vy p - vy (mh_loc s) in
    let sx := vx (mh_orient s) in let sy := vy (mh_orient s) in let sz := vz (mh_orient s) in
    mh_H iv kv mu_0 s sec p =
    cvscal (RtoC (mh_moment s / (4 * PI)))
      (cvsub (mh_vec (mh_k mu_0 s) sx sy sz x y)
             (if sec then cvof 1%C (mh_prim sx sy sz x y) else cvzero)).
  Proof.
    intros H x y sx sy sz. destruct (off_pos s p H) as [P Q]. fold x y in P, Q.
    unfold mh_H. cbv zeta. fold x y sx sy sz. set (k := mh_k mu_0 s).
    set (r := sqrt (x ^ 2 + y ^ 2)) in *.
    assert (XY : x <> 0 \/ y <> 0) by (unfold x, y; destruct H; [left|right]; lra).
    assert (CS : cos (atan2 y x) = x / r /\ sin (atan2 y x) = y / r).
    { apply (atan2_dir x y). rewrite <- Q. nra. }
    destruct CS as [CC SS]. rewrite CC, SS.
    unfold mh_vec, mh_prim, mh_g. cbv zeta. fold r.
    set (IK := (iv 1 (Ci * k * r / 2) * kv 1 (Ci * k * r / 2) - iv 2 (Ci * k * r / 2) * kv 2 (Ci * k * r / 2))%C).
    set (ph := mh_phi k r). set (dp := mh_dphi_dr k r). set (hz := mh_hz k r).
    clearbody ph dp hz IK k.
    assert (N : RtoC r <> 0%C) by (apply RtoC_neq; lra).
    assert (SQ : (RtoC r * RtoC r = RtoC x * RtoC x + RtoC y * RtoC y)%C).
    { rewrite <- !RtoC_mult, <- RtoC_plus. f_equal. lra. }
    assert (EX : forall v1 v2, v1 = v2 -> cvscal (RtoC (mh_moment s / (4 * PI))) v1 = cvscal (RtoC (mh_moment s / (4 * PI))) v2)
      by (intros; subst; reflexivity).
    apply EX. clear EX.
    assert (F1 : (RtoC (sx * (-1 / r ^ 3)) * (RtoC (y ^ 2) * ph + RtoC (x ^ 2 * r) * dp) =
       RtoC sx * (- (ph / RtoC r) + (ph - RtoC r * dp) / (RtoC r * RtoC r * RtoC r) * (RtoC x * RtoC x)))%C).
    { replace (RtoC (y ^ 2)) with (RtoC r * RtoC r - RtoC x * RtoC x)%C by (rewrite SQ, pow_2, RtoC_mult; ring).
      push. cnum. field. exact N. }
    assert (F2 : (RtoC (sy * (-1 / r ^ 3)) * (RtoC (x ^ 2) * ph + RtoC (y ^ 2 * r) * dp) =
       RtoC sy * (- (ph / RtoC r) + (ph - RtoC r * dp) / (RtoC r * RtoC r * RtoC r) * (RtoC y * RtoC y)))%C).
    { replace (RtoC (x ^ 2)) with (RtoC r * RtoC r - RtoC y * RtoC y)%C by (rewrite SQ, pow_2, RtoC_mult; ring).
      push. cnum. field. exact N. }
    rewrite F1, F2. clear F1 F2 SQ CC SS. clearbody r.
    unfold Reqb.
    destruct (Req_EM_T sz 0) as [Zz|Zz]; destruct (Req_EM_T sx 0) as [Zx|Zx]; destruct (Req_EM_T sy 0) as [Zy|Zy];
      rewrite ?Zx, ?Zy, ?Zz; destruct sec;
      apply cvec_eq; cbn [cvx cvy cvz cvsub cvadd cvof cvzero vx vy vz]; push; cnum; field; exact N.
  Qed.
End HS.
