(** Structure, potential and low-frequency limit of the half-space dipole (C64). *)
From Coq Require Import Reals Lra List Bool String.
From Coquelicot Require Import Coquelicot.
From Verif Require Import Vec3 Calculus Deriv Cplx CplxTaylor Radial Numpy Model_Spatial Model_Static Model_FDEM
  Proof_Static2 Proof_FDEM Proof_FDEM2 Proof_FDEM3 Proof_FDEM4 Proof_FDEM5 Proof_Loop2.
Open Scope R_scope.

Lemma CD_comp (f : R -> C) (g : R -> R) (x : R) (a : C) (b : R) :
  is_cderive f (g x) a -> is_derive g x b -> is_cderive (fun t => f (g t)) x (RtoC b * a)%C.
Proof.
  intros [A B] D. split; simpl.
  - eapply is_derive_eq; [exact (D_comp (fun t => Re (f t)) g x _ _ A D)|]. unfold Re, Im. ring.
  - eapply is_derive_eq; [exact (D_comp (fun t => Im (f t)) g x _ _ B D)|]. unfold Re, Im. ring.
Qed.

(** dphi_dr is the derivative of phi *)
Lemma D_mh_phi (k : C) (r : R) : k <> 0%C -> 0 < r -> is_cderive (mh_phi k) r (mh_dphi_dr k r).
Proof.
  intros K P.
  assert (N : RtoC r <> 0%C) by (apply RtoC_neq; lra).
  apply (is_cderive_ext_loc (fun t => (2 / (k * k)) * ((/ RtoC t * / RtoC t * / RtoC t * / RtoC t)
     * (3 + (k * k) * (RtoC t * RtoC t) - (3 + 3 * (Ci * k * RtoC t) - (k * k) * (RtoC t * RtoC t)) * cexp (- (Ci * k * RtoC t)))))%C).
  - exists (mkposreal r P). intros t Ht.
    assert (0 < t). { unfold ball in Ht; simpl in Ht. unfold AbsRing_ball, abs, minus, plus, opp in Ht; simpl in Ht.
      apply Rabs_lt_between in Ht. lra. }
    assert (Nt : RtoC t <> 0%C) by (apply RtoC_neq; lra).
    unfold mh_phi. replace (- Ci * k * RtoC t)%C with (- (Ci * k * RtoC t))%C by ring.
    cbn [cpow]. generalize (cexp (- (Ci * k * RtoC t)))%C. intro e. field. split; assumption.
  - assert (IK2 : (Ci * k * (Ci * k) = - (k * k))%C) by apply iku.
    eapply is_cderive_eq; [cder; lra|]. cbv beta.
    unfold mh_dphi_dr. replace (- Ci * k * RtoC r)%C with (- (Ci * k * RtoC r))%C by ring.
    generalize (cexp (- (Ci * k * RtoC r)))%C. intro e.
    assert (EQ : (- Ci * k ^ 3 * RtoC r ^ 3 = - (k * k) * (Ci * k) * (RtoC r * RtoC r * RtoC r))%C) by (cbn [cpow]; ring).
    rewrite EQ. replace (12 * Ci * k * RtoC r)%C with (12 * (Ci * k) * RtoC r)%C by ring.
    set (u := (Ci * k)%C) in *. set (kk := (k * k)%C) in *.
    replace (k ^ 2)%C with kk by (unfold kk; cbn [cpow]; ring).
    replace kk with (- (u * u))%C by (rewrite IK2; ring).
    assert (U : u <> 0%C).
    { unfold u. apply Cmult_neq_0; [|exact K]. intro E. apply (f_equal Im) in E. simpl in E. lra. }
    assert (UU : (- (u * u))%C <> 0%C).
    { intro E. apply (Cmult_neq_0 u u U U). replace (u * u)%C with (- - (u * u))%C by ring. rewrite E. ring. }
    clearbody u. cnum. field. repeat split; assumption.
Qed.

Section HS.
  Variable iv kv : nat -> C -> C.
  Variable mu_0 : R.
  Let H_ := mh_H iv kv mu_0.

  Lemma mh_k_neq s : 0 < mu_0 -> 0 < fd_freq (mh_med s) -> 0 < fd_sigma (mh_med s) -> mh_k mu_0 s <> 0%C.
  Proof.
    intros M F S E. unfold mh_k in E.
    match type of E with csqrt ?z = _ => pose proof (csqrt_sq z) as Q end. rewrite E in Q.
    pose proof PI_RGT_0. apply (f_equal Im) in Q. unfold fd_sigma_hat, sigma_hat in Q.
    assert (X : 0 < 2 * PI * fd_freq (mh_med s) * mu_0 * fd_sigma (mh_med s))
      by (apply Rmult_lt_0_compat; [apply Rmult_lt_0_compat; [apply Rmult_lt_0_compat|]|]; lra).
    destruct (is_True (fd_qs (mh_med s))); simpl in Q; nra.
  Qed.

  (** total = secondary + static dipole *)
  Lemma mh_total s p mu : off s p -> vz p = vz (mh_loc s) -> mu <> 0 ->
    exists h, mdipole_field (MD (mh_moment s) (mh_orient s) (mh_loc s) mu) "cartesian" p = Ok h /\
      H_ s false p = cvadd (H_ s true p) (cvof 1%C h).
  Proof.
    intros O Z M.
    assert (Hp : p <> mh_loc s) by (intro E; destruct O as [O|O]; apply O; rewrite E; reflexivity).
    eexists. split; [exact (static_is_static (MD (mh_moment s) (mh_orient s) (mh_loc s) mu) p Hp M)|].
    unfold H_. rewrite !(mh_form _ _ _ _ _ _ O). cbn [md_moment md_orient md_loc].
    destruct (off_pos s p O) as [P Q].
    assert (NR : vnorm (vsub p (mh_loc s)) = sqrt ((vx p - vx (mh_loc s)) ^ 2 + (vy p - vy (mh_loc s)) ^ 2)).
    { unfold vnorm, vnorm2, vsub; cbn [vx vy vz]. rewrite Z. f_equal. ring. }
    pose proof PI_RGT_0.
    assert (ST : vscal (mh_moment s / (4 * PI))
        (mh_prim (vx (mh_orient s)) (vy (mh_orient s)) (vz (mh_orient s)) (vx p - vx (mh_loc s)) (vy p - vy (mh_loc s)))
       = static_dipole (mh_moment s / (4 * PI)) (mh_orient s) (vsub p (mh_loc s))).
    { unfold static_dipole, mh_prim. rewrite NR. set (r := sqrt _) in *. clearbody r.
      unfold vscal, vadd, vdot, vsub; cbn [vx vy vz]. rewrite Z. apply vec3_eq; cbn [vx vy vz]; field; repeat split; lra. }
    rewrite <- ST. set (pr := mh_prim _ _ _ _ _). set (v := mh_vec _ _ _ _ _ _ _ _).
    unfold cvscal, cvsub, cvadd, cvof, cvzero, vscal; apply cvec_eq; cbn [cvx cvy cvz vx vy vz]; rewrite ?(RtoC_mult (mh_moment s / (4 * PI))); ring.
  Qed.

  (** linear in the moment, and superposition over the orientation *)
  Lemma mh_moment_linear m o loc md a sec p :
    H_ (MH md (a * m) o loc) sec p = cvscal (RtoC a) (H_ (MH md m o loc) sec p).
  Proof.
    unfold H_, mh_H. cbv zeta. cbn [mh_moment mh_med mh_orient mh_loc].
    change (mh_k mu_0 (MH md (a * m) o loc)) with (mh_k mu_0 (MH md m o loc)).
    rewrite cvscal_cvscal. f_equal. rewrite <- RtoC_mult. f_equal. unfold Rdiv; ring.
  Qed.

  Lemma mh_superpose m loc md sec p o1 o2 : off (MH md m o1 loc) p ->
    H_ (MH md m (vadd o1 o2) loc) sec p = cvadd (H_ (MH md m o1 loc) sec p) (H_ (MH md m o2 loc) sec p).
  Proof.
    intro O. unfold H_. rewrite (mh_form _ _ _ (MH md m (vadd o1 o2) loc)) by exact O.
    rewrite (mh_form _ _ _ (MH md m o1 loc)) by exact O. rewrite (mh_form _ _ _ (MH md m o2 loc)) by exact O.
    cbn [mh_moment mh_med mh_orient mh_loc].
    change (mh_k mu_0 (MH md m (vadd o1 o2) loc)) with (mh_k mu_0 (MH md m o1 loc)).
    change (mh_k mu_0 (MH md m o2 loc)) with (mh_k mu_0 (MH md m o1 loc)).
    set (k := mh_k mu_0 _). set (x := vx p - vx loc). set (y := vy p - vy loc).
    destruct (off_pos _ _ O) as [P _]. cbn [mh_loc] in P. fold x y in P.
    unfold mh_vec, mh_prim. set (r := sqrt _) in *.
    set (ph := mh_phi k r). set (dp := mh_dphi_dr k r). set (hz := mh_hz k r). set (g := mh_g _ _ _ _).
    clearbody ph dp hz g r k.
    assert (N : RtoC r <> 0%C) by (apply RtoC_neq; lra). generalize (RtoC (m / (4 * PI))). intro cc.
    destruct sec; unfold vadd; apply cvec_eq; cbn [cvx cvy cvz cvscal cvsub cvadd cvof cvzero vx vy vz];
      push; cnum; field; exact N.
  Qed.

  (** rotation about a vertical axis *)
  Definition rotz (t : R) (v : vec3) : vec3 := V3 (cos t * vx v - sin t * vy v) (sin t * vx v + cos t * vy v) (vz v).
  Definition crotz (t : R) (v : cvec) : cvec :=
    CV (RtoC (cos t) * cvx v - RtoC (sin t) * cvy v)%C (RtoC (sin t) * cvx v + RtoC (cos t) * cvy v)%C (cvz v).

  Lemma mh_rotate md m o loc sec p t : off (MH md m o loc) p ->
    H_ (MH md m (rotz t o) (rotz t loc)) sec (rotz t p) = crotz t (H_ (MH md m o loc) sec p).
  Proof.
    intro O. pose proof (sin2_cos2 t) as SC. unfold Rsqr in SC.
    set (c := cos t) in *. set (sn := sin t) in *.
    set (x := vx p - vx loc). set (y := vy p - vy loc).
    assert (X' : vx (rotz t p) - vx (rotz t loc) = c * x - sn * y) by (unfold rotz, x, y; cbn [vx vy vz]; fold c sn; ring).
    assert (Y' : vy (rotz t p) - vy (rotz t loc) = sn * x + c * y) by (unfold rotz, x, y; cbn [vx vy vz]; fold c sn; ring).
    assert (RR : sqrt ((c * x - sn * y) ^ 2 + (sn * x + c * y) ^ 2) = sqrt (x ^ 2 + y ^ 2)).
    { f_equal. replace (x ^ 2 + y ^ 2) with ((sn * sn + c * c) * (x ^ 2 + y ^ 2)) by (rewrite SC; ring). ring. }
    destruct (off_pos _ _ O) as [P _]. cbn [mh_loc] in P. fold x y in P.
    assert (O' : off (MH md m (rotz t o) (rotz t loc)) (rotz t p)).
    { unfold off. cbn [mh_loc]. destruct (Req_dec (c * x - sn * y) 0) as [E|E]; [|left; lra].
      destruct (Req_dec (sn * x + c * y) 0) as [E'|E']; [|right; lra].
      exfalso. rewrite <- RR, E, E' in P. replace (0 ^ 2 + 0 ^ 2) with 0 in P by ring. rewrite sqrt_0 in P. lra. }
    unfold H_. rewrite (mh_form _ _ _ _ _ _ O'), (mh_form _ _ _ _ _ _ O). cbn [mh_moment mh_med mh_orient mh_loc].
    change (mh_k mu_0 (MH md m (rotz t o) (rotz t loc))) with (mh_k mu_0 (MH md m o loc)).
    set (k := mh_k mu_0 _). rewrite X', Y'. fold x y.
    unfold mh_vec, mh_prim. cbv zeta. rewrite !RR. set (r := sqrt (x ^ 2 + y ^ 2)) in *.
    set (ph := mh_phi k r). set (dp := mh_dphi_dr k r). set (hz := mh_hz k r). set (g := mh_g _ _ _ _).
    assert (MD : vx (rotz t o) * (c * x - sn * y) + vy (rotz t o) * (sn * x + c * y) = vx o * x + vy o * y).
    { unfold rotz; cbn [vx vy]. fold c sn.
      replace (vx o * x + vy o * y) with ((sn * sn + c * c) * (vx o * x + vy o * y)) by (rewrite SC; ring). ring. }
    cbv zeta. rewrite MD. set (d := vx o * x + vy o * y).
    clearbody ph dp hz g r k d x y.
    assert (N : RtoC r <> 0%C) by (apply RtoC_neq; lra). generalize (RtoC (m / (4 * PI))). intro cc.
    unfold rotz, crotz. fold c sn. clearbody c sn.
    destruct sec; apply cvec_eq; cbn [cvx cvy cvz cvscal cvsub cvadd cvof cvzero vx vy vz]; push; cnum; field; exact N.
  Qed.

  (** reciprocity between the components *)
  Lemma mh_reciprocal md m loc sec p : off (MH md m vzero loc) p ->
    let h o := H_ (MH md m o loc) sec p in
    cvy (h (V3 1 0 0)) = cvx (h (V3 0 1 0)) /\
    cvz (h (V3 1 0 0)) = (- cvx (h (V3 0 0 1)))%C /\
    cvz (h (V3 0 1 0)) = (- cvy (h (V3 0 0 1)))%C.
  Proof.
    intro O. cbv zeta. unfold H_.
    rewrite (mh_form _ _ _ (MH md m (V3 1 0 0) loc)) by exact O.
    rewrite (mh_form _ _ _ (MH md m (V3 0 1 0) loc)) by exact O.
    rewrite (mh_form _ _ _ (MH md m (V3 0 0 1) loc)) by exact O.
    cbn [mh_moment mh_med mh_orient mh_loc vx vy vz].
    change (mh_k mu_0 (MH md m (V3 0 1 0) loc)) with (mh_k mu_0 (MH md m (V3 1 0 0) loc)).
    change (mh_k mu_0 (MH md m (V3 0 0 1) loc)) with (mh_k mu_0 (MH md m (V3 1 0 0) loc)).
    set (k := mh_k mu_0 _). set (x := vx p - vx loc). set (y := vy p - vy loc).
    destruct (off_pos _ _ O) as [P _]. cbn [mh_loc] in P. fold x y in P.
    unfold mh_vec, mh_prim. set (r := sqrt _) in *.
    set (ph := mh_phi k r). set (dp := mh_dphi_dr k r). set (hz := mh_hz k r). set (g := mh_g _ _ _ _).
    clearbody ph dp hz g r k x y.
    assert (N : RtoC r <> 0%C) by (apply RtoC_neq; lra). generalize (RtoC (m / (4 * PI))). intro cc.
    destruct sec; (split; [|split]); cbn [cvx cvy cvz cvscal cvsub cvadd cvof cvzero vx vy vz]; push; cnum; field; exact N.
  Qed.

  (** only mu_0 enters: the object's mu does not *)
  Lemma mh_ignores_mu f sg mu mu' e q m o loc sec p :
    H_ (MH (FD f sg mu e q) m o loc) sec p = H_ (MH (FD f sg mu' e q) m o loc) sec p.
  Proof. reflexivity. Qed.

  (** the horizontal field of a horizontal dipole is minus the horizontal gradient of a potential *)
  Definition mh_pot (k : C) (sx sy x y : R) : C :=
    (mh_phi k (sqrt (x ^ 2 + y ^ 2)) * RtoC ((sx * x + sy * y) / sqrt (x ^ 2 + y ^ 2)))%C.

  Lemma mh_pot_grad (k : C) (sx sy x y : R) : k <> 0%C -> x <> 0 \/ y <> 0 ->
    is_cderive (fun t => mh_pot k sx sy t y) x (- cvx (mh_vec iv kv k sx sy 0 x y))%C /\
    is_cderive (fun t => mh_pot k sx sy x t) y (- cvy (mh_vec iv kv k sx sy 0 x y))%C.
  Proof.
    intros K XY.
    assert (S0 : 0 < x ^ 2 + y ^ 2) by (destruct XY; nra).
    destruct (sqrt_sq_pos _ S0) as [P Q].
    assert (Dx : is_derive (fun t => sqrt (t ^ 2 + y ^ 2)) x (x / sqrt (x ^ 2 + y ^ 2))).
    { eapply is_derive_eq; [der; lra|]. cbn [INR Init.Nat.pred]. field. lra. }
    assert (Dy : is_derive (fun t => sqrt (x ^ 2 + t ^ 2)) y (y / sqrt (x ^ 2 + y ^ 2))).
    { eapply is_derive_eq; [der; lra|]. cbn [INR Init.Nat.pred]. field. lra. }
    pose proof (D_mh_phi k _ K P) as DP.
    unfold mh_pot, mh_vec. split.
    - eapply is_cderive_eq.
      + apply (CD_mult (fun t => mh_phi k (sqrt (t ^ 2 + y ^ 2))) (fun t => RtoC ((sx * t + sy * y) / sqrt (t ^ 2 + y ^ 2)))).
        * exact (CD_comp (mh_phi k) (fun t => sqrt (t ^ 2 + y ^ 2)) x _ _ DP Dx).
        * apply CD_real. der. lra.
      + cbv beta zeta. cbn [cvx]. set (r := sqrt _) in *. set (ph := mh_phi k r). set (dp := mh_dphi_dr k r). set (g := mh_g _ _ _ _).
        clearbody ph dp g r. assert (N : RtoC r <> 0%C) by (apply RtoC_neq; lra). push. cnum.
        assert (SQ : (RtoC r * RtoC r = RtoC x * RtoC x + RtoC y * RtoC y)%C).
        { rewrite <- !RtoC_mult, <- RtoC_plus. f_equal. lra. }
        field. exact N.
    - eapply is_cderive_eq.
      + apply (CD_mult (fun t => mh_phi k (sqrt (x ^ 2 + t ^ 2))) (fun t => RtoC ((sx * x + sy * t) / sqrt (x ^ 2 + t ^ 2)))).
        * exact (CD_comp (mh_phi k) (fun t => sqrt (x ^ 2 + t ^ 2)) y _ _ DP Dy).
        * apply CD_real. der. lra.
      + cbv beta zeta. cbn [cvy]. set (r := sqrt _) in *. set (ph := mh_phi k r). set (dp := mh_dphi_dr k r). set (g := mh_g _ _ _ _).
        clearbody ph dp g r. assert (N : RtoC r <> 0%C) by (apply RtoC_neq; lra). push. cnum.
        field. exact N.
  Qed.
End HS.
