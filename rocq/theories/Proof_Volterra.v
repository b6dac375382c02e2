(** The Boussinesq and Cerruti solutions (C130). *)
From Coq Require Import Reals Lra Psatz.
From Coquelicot Require Import Coquelicot.
From Verif Require Import Vec3 Calculus Deriv Proof_Static2 Spec_Volterra.
Open Scope R_scope.

(** ** products of powers of the distance r and of r - z *)
Section Point.
  Variables x y z : R.
  Hypothesis N : V3 x y z <> vzero.
  Hypothesis Z : z <= 0.
  Let r := vnorm (V3 x y z).
  Let w := r - z.
  Lemma r_pos : 0 < r. Proof. exact (vnorm_pos _ N). Qed.
  Lemma w_pos : 0 < w. Proof. pose proof r_pos. unfold w. lra. Qed.
  Lemma r_sq : r * r = x * x + y * y + z * z.
  Proof. unfold r, vnorm. rewrite sqrt_sqrt; [reflexivity|]. unfold vnorm2; cbn. nra. Qed.
End Point.

Section Solutions.
  Variables lambda mu : R.
  Hypothesis M : mu <> 0.
  Hypothesis LM : lambda + mu <> 0.
  Notation k := (mu / (lambda + mu)).

  (** the Jacobians, divided by 1/(4 pi mu) *)
  Definition jload (j : axis) (p : vec3) : mat3 :=
    let x := vx p in let y := vy p in let z := vz p in let r := vnorm p in let w := r - z in
    let c := / r ^ 3 in let d := 3 / r ^ 5 in let e := / (r * w ^ 2) in let f := (w + 2 * r) / (r ^ 3 * w ^ 3) in
    let g := (w + r) / (r ^ 3 * w ^ 2) in let h := / (r * w) in
    match j with
    | AX => M3 (V3 (x * c - x * x * x * d + k * (- 3 * x * e + x * x * x * f)) (- y * c - x * x * y * d + k * (- y * e + x * x * y * f)) (- z * c - x * x * z * d + k * (h - x * x * g)))
               (V3 (y * c - x * x * y * d - k * (y * e - x * x * y * f)) (x * c - x * y * y * d - k * (x * e - x * y * y * f)) (- x * y * z * d - k * (x * y * g)))
               (V3 (z * c - x * x * z * d - k * (h - x * x * g)) (- x * y * z * d + k * (x * y * g)) (x * c - x * z * z * d - k * (x * c)))
    | AY => M3 (V3 (y * c - x * x * y * d - k * (y * e - x * x * y * f)) (x * c - x * y * y * d - k * (x * e - x * y * y * f)) (- x * y * z * d - k * (x * y * g)))
               (V3 (- x * c - x * y * y * d + k * (- x * e + x * y * y * f)) (y * c - y * y * y * d + k * (- 3 * y * e + y * y * y * f)) (- z * c - y * y * z * d + k * (h - y * y * g)))
               (V3 (- x * y * z * d + k * (x * y * g)) (z * c - y * y * z * d - k * (h - y * y * g)) (y * c - y * z * z * d - k * (y * c)))
    | AZ => M3 (V3 (z * c - x * x * z * d + k * (h - x * x * g)) (- x * y * z * d - k * (x * y * g)) (x * c - x * z * z * d + k * (x * c)))
               (V3 (- x * y * z * d - k * (x * y * g)) (z * c - y * y * z * d + k * (h - y * y * g)) (y * c - y * z * z * d + k * (y * c)))
               (V3 (- x * z * z * d - (1 + k) * (x * c)) (- y * z * z * d - (1 + k) * (y * c)) (2 * z * c - z * z * z * d - (1 + k) * (z * c)))
    end.
  Definition jac_load (j : axis) (p : vec3) : mat3 := mscal (/ (4 * PI * mu)) (jload j p).

  Lemma load_jac j p : vz p <= 0 -> p <> vzero -> is_jac (point_load lambda mu j) p (jac_load j p).
  Proof.
    destruct p as [x y z]. intros Z N. cbn in Z. pose proof (r_pos x y z N) as RP. pose proof (w_pos x y z N Z) as WP.
    pose proof (norm_dx x y z N) as DX. pose proof (norm_dy x y z N) as DY. pose proof (norm_dz x y z N) as DZ.
    assert (N3 : vnorm (V3 x y z) ^ 3 <> 0) by (apply Rgt_not_eq, pow_lt, RP).
    assert (N2 : vnorm (V3 x y z) * (vnorm (V3 x y z) - z) <> 0) by (apply Rgt_not_eq, Rmult_lt_0_compat; assumption).
    assert (N1 : vnorm (V3 x y z) * (vnorm (V3 x y z) - z) ^ 2 <> 0) by (apply Rgt_not_eq, Rmult_lt_0_compat; [assumption|apply pow_lt; assumption]).
    unfold jac_load, point_load, jload. destruct j; split_jac; unfold mscal, vscal; cbn [vx vy vz m0 m1 m2].
    all: generalize (/ (4 * PI * mu)) k; intros c0 k0.
    all: eapply is_derive_eq; [der; cbv beta; first [assumption|lra]|cbv beta; cbn [INR pow Init.Nat.pred]; generalize dependent (vnorm (V3 x y z)); intros; field; repeat split; lra].
  Qed.

  (** ** the stresses, divided by 1/(2 pi) *)
  Definition sload (j : axis) (p : vec3) : mat3 :=
    let x := vx p in let y := vy p in let z := vz p in let r := vnorm p in let w := r - z in
    let c := / r ^ 3 in let d := 3 / r ^ 5 in let e := / (r * w ^ 2) in let f := (w + 2 * r) / (r ^ 3 * w ^ 3) in
    let g := (w + r) / (r ^ 3 * w ^ 2) in let h := / (r * w) in
    match j with
    | AX => let xy := - x * x * y * d + k * (- y * e + x * x * y * f) in
            M3 (V3 (- x * x * x * d + k * (x * c - 3 * x * e + x * x * x * f)) xy (- x * x * z * d))
               (V3 xy (- x * y * y * d + k * (x * c - x * e + x * y * y * f)) (- x * y * z * d))
               (V3 (- x * x * z * d) (- x * y * z * d) (- x * z * z * d))
    | AY => let xy := - x * y * y * d + k * (- x * e + x * y * y * f) in
            M3 (V3 (- x * x * y * d + k * (y * c - y * e + x * x * y * f)) xy (- x * y * z * d))
               (V3 xy (- y * y * y * d + k * (y * c - 3 * y * e + y * y * y * f)) (- y * y * z * d))
               (V3 (- x * y * z * d) (- y * y * z * d) (- y * z * z * d))
    | AZ => let xy := - x * y * z * d - k * (x * y * g) in
            M3 (V3 (- x * x * z * d + k * (z * c + h - x * x * g)) xy (- x * z * z * d))
               (V3 xy (- y * y * z * d + k * (z * c + h - y * y * g)) (- y * z * z * d))
               (V3 (- x * z * z * d) (- y * z * z * d) (- z * z * z * d))
    end.
  Lemma load_trace j p : vz p <= 0 -> p <> vzero -> mtrace (jload j p) = - 2 * k * (comp j p * / vnorm p ^ 3).
  Proof.
    destruct p as [x y z]. intros Z N. cbn in Z. pose proof (r_pos x y z N) as RP. pose proof (w_pos x y z N Z) as WP. pose proof (r_sq x y z) as RS.
    assert (X2 : x * x = vnorm (V3 x y z) * vnorm (V3 x y z) - y * y - z * z) by lra.
    unfold jload, mtrace. destruct j; cbn [vx vy vz m0 m1 m2 comp]; generalize dependent (vnorm (V3 x y z)); intros r RP WP RS X2; generalize k; intros k0.
    all: field [X2]; repeat split; lra.
  Qed.
  Lemma hooke A B T : lambda * (/ (4 * PI * mu) * (- 2 * k * T)) + mu * (/ (4 * PI * mu) * A + / (4 * PI * mu) * B) = / (2 * PI) * ((A + B) / 2 - (1 - k) * T).
  Proof. pose proof PI_RGT_0. field. repeat split; lra. Qed.
  Lemma hooke0 A B T : lambda * (/ (4 * PI * mu) * (- 2 * k * T)) * 0 + mu * (/ (4 * PI * mu) * A + / (4 * PI * mu) * B) = / (2 * PI) * ((A + B) / 2).
  Proof. pose proof PI_RGT_0. field. repeat split; lra. Qed.
  Lemma hooke_mat J T : mtrace J = - 2 * k * T ->
    stress lambda mu (mscal (/ (4 * PI * mu)) J) =
    mscal (/ (2 * PI)) (M3 (V3 ((vx (m0 J) + vx (m0 J)) / 2 - (1 - k) * T) ((vy (m0 J) + vx (m1 J)) / 2) ((vz (m0 J) + vx (m2 J)) / 2))
                           (V3 ((vx (m1 J) + vy (m0 J)) / 2) ((vy (m1 J) + vy (m1 J)) / 2 - (1 - k) * T) ((vz (m1 J) + vy (m2 J)) / 2))
                           (V3 ((vx (m2 J) + vz (m0 J)) / 2) ((vy (m2 J) + vz (m1 J)) / 2) ((vz (m2 J) + vz (m2 J)) / 2 - (1 - k) * T))).
  Proof.
    intros E. unfold stress. replace (mtrace (mscal (/ (4 * PI * mu)) J)) with (/ (4 * PI * mu) * mtrace J) by (unfold mtrace, mscal; cbn; ring). rewrite E. clear E.
    destruct J as [[a11 a12 a13] [a21 a22 a23] [a31 a32 a33]]. unfold madd, mtrans, mscal, vadd, vscal, mid. cbn [vx vy vz m0 m1 m2].
    apply f_equal3; apply f_equal3; rewrite ?Rmult_1_r, ?hooke0, ?hooke; reflexivity.
  Qed.
  Lemma load_stress j p : vz p <= 0 -> p <> vzero -> stress lambda mu (jac_load j p) = mscal (/ (2 * PI)) (sload j p).
  Proof.
    intros Z N. unfold jac_load. rewrite (hooke_mat _ _ (load_trace j p Z N)). apply f_equal. destruct p as [x y z].
    destruct j; unfold jload, sload; cbn [vx vy vz m0 m1 m2 comp]; generalize (vnorm (V3 x y z)); intros r.
    all: generalize (/ r ^ 3) (3 / r ^ 5) (/ (r * (r - z) ^ 2)) ((r - z + 2 * r) / (r ^ 3 * (r - z) ^ 3)) ((r - z + r) / (r ^ 3 * (r - z) ^ 2)) (/ (r * (r - z))) k; intros c d e f g h k0.
    all: apply f_equal3; apply f_equal3; field.
  Qed.

  (** ** equilibrium *)
  Lemma below_near p : vz p < 0 -> near p (fun q => vz q < 0).
  Proof.
    intros Z. exists (- vz p). split; [lra|]. intros q H. assert (Rabs (vz q - vz p) <= vnorm (vsub q p)).
    { unfold vnorm, vnorm2. rewrite <- sqrt_Rsqr_abs. apply sqrt_le_1_alt. unfold Rsqr, vsub; cbn [vx vy vz]. pose proof (Rle_0_sqr (vx q - vx p)) as A. pose proof (Rle_0_sqr (vy q - vy p)) as B. unfold Rsqr in A, B. lra. }
    assert (vz q - vz p <= Rabs (vz q - vz p)) by apply Rle_abs. lra.
  Qed.
  Lemma load_row j p i : vz p < 0 -> is_div (fun q => mvec (mscal (/ (2 * PI)) (sload j q)) (unit_vec i)) p 0.
  Proof.
    destruct p as [x y z]. intros Z. cbn in Z. assert (N : V3 x y z <> vzero) by (intros E; apply (f_equal vz) in E; cbn in E; lra).
    assert (Z' : z <= 0) by lra. pose proof (r_pos x y z N) as RP. pose proof (w_pos x y z N Z') as WP. pose proof (r_sq x y z) as RS.
    assert (X2 : x * x = vnorm (V3 x y z) * vnorm (V3 x y z) - y * y - z * z) by lra.
    pose proof (norm_dx x y z N) as DX. pose proof (norm_dy x y z N) as DY. pose proof (norm_dz x y z N) as DZ.
    assert (N3 : vnorm (V3 x y z) ^ 3 <> 0) by (apply Rgt_not_eq, pow_lt, RP).
    assert (N5 : vnorm (V3 x y z) ^ 5 <> 0) by (apply Rgt_not_eq, pow_lt, RP).
    assert (N2 : vnorm (V3 x y z) * (vnorm (V3 x y z) - z) <> 0) by (apply Rgt_not_eq, Rmult_lt_0_compat; assumption).
    assert (N1 : vnorm (V3 x y z) * (vnorm (V3 x y z) - z) ^ 2 <> 0) by (apply Rgt_not_eq, Rmult_lt_0_compat; [assumption|apply pow_lt; assumption]).
    assert (N6 : vnorm (V3 x y z) ^ 3 * (vnorm (V3 x y z) - z) ^ 2 <> 0) by (apply Rgt_not_eq, Rmult_lt_0_compat; apply pow_lt; assumption).
    assert (N7 : vnorm (V3 x y z) ^ 3 * (vnorm (V3 x y z) - z) ^ 3 <> 0) by (apply Rgt_not_eq, Rmult_lt_0_compat; apply pow_lt; assumption).
    apply (is_div_ext (fun q => vscal (/ (2 * PI)) (V3 (comp i (m0 (sload j q))) (comp i (m1 (sload j q))) (comp i (m2 (sload j q)))))).
    { intros q. generalize (sload j q). intros S. destruct i; unfold mvec, mscal, vscal, vdot; cbn [vx vy vz m0 m1 m2 comp unit_vec]; f_equal; ring. }
    replace 0 with (/ (2 * PI) * 0) by ring. apply is_div_scal.
    destruct j, i; unfold sload; cbn [vx vy vz m0 m1 m2 comp]; generalize k; intros k0.
    all: unfold is_div; eexists (M3 (V3 _ _ _) (V3 _ _ _) (V3 _ _ _)); split; [split_jac; der; cbv beta; first [assumption|lra]|].
    all: unfold mtrace; cbn [vx vy vz m0 m1 m2 INR pow Init.Nat.pred]; clear DX DY DZ N N1 N2 N3 N5 N6 N7; generalize dependent (vnorm (V3 x y z)); intros r; intros; symmetry.
    all: field [X2]; repeat split; lra.
  Qed.
  Lemma load_equilibrium j : in_equilibrium lambda mu (point_load lambda mu j) (jac_load j).
  Proof.
    split; [|split].
    - intros p Z N. apply load_jac; assumption.
    - intros p Z i. destruct (load_row j p i Z) as (J & A & B). exists J. split; [|exact B]. eapply is_jac_ext_near; [|exact A]. eapply near_impl; [|exact (below_near p Z)].
      cbv beta. intros q Zq. rewrite load_stress; [reflexivity|lra|]. intros E. rewrite E in Zq. cbn in Zq. lra.
    - intros p Z N. unfold traction. rewrite load_stress by (lra || exact N). destruct p as [x y z]. cbn in Z. subst z. unfold sload. destruct j; unfold mvec, vdot, mscal, vscal, vzero; cbn [vx vy vz m0 m1 m2]; f_equal; ring.
  Qed.
End Solutions.
