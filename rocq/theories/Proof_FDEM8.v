(** The harmonic results in the form in which Props_FDEM.v states them. *)
From Coq Require Import Reals Lra List Bool String.
From Coquelicot Require Import Coquelicot.
From Verif Require Import Vec3 Calculus Deriv Cplx CplxTaylor Radial Numpy Model_Spatial Model_Static Model_FDEM Spec_FDEM
  Proof_Static2 Proof_FDEM Proof_FDEM2 Proof_FDEM3 Proof_FDEM4 Proof_FDEM5 Proof_FDEM6 Proof_FDEM7.
Import ListNotations.
Open Scope R_scope.

(** ** C57 *)
Lemma dispersion (f sg mu e : R) q :
  let k := wavenumber f sg mu e q in
  (k * k)%C = (if is_True q then - Ci * RtoC (2 * PI * f) * mu * sg
               else RtoC ((2 * PI * f) ^ 2 * mu * e) - Ci * RtoC (2 * PI * f) * mu * sg)%C.
Proof. cbv zeta. unfold wavenumber, omega. destruct (is_True q); apply csqrt_sq. Qed.

Lemma wavenumber_only_root (f sg mu e : R) q (w : C) : 0 < Re w ->
  (w * w)%C = (if is_True q then - Ci * RtoC (2 * PI * f) * mu * sg
               else RtoC ((2 * PI * f) ^ 2 * mu * e) - Ci * RtoC (2 * PI * f) * mu * sg)%C ->
  w = wavenumber f sg mu e q.
Proof. intros P E. unfold wavenumber, omega. destruct (is_True q); apply csqrt_unique; assumption. Qed.

Lemma wave_decay f sg mu e q : 0 < f -> 0 < sg -> 0 < mu ->
  forall r r', r < r' ->
  Cmod (cexp (- Ci * wavenumber f sg mu e q * RtoC r')%C) < Cmod (cexp (- Ci * wavenumber f sg mu e q * RtoC r)%C).
Proof.
  intros F S M r r' L. destruct (wavenumber_branch f sg mu e q F S M) as [_ N].
  set (k := wavenumber f sg mu e q) in *. clearbody k. rewrite !Cmod_cexp. apply exp_increasing. destruct k as [a b]. simpl in *. nra.
Qed.

(** ** C59 *)
Lemma flag_agree f sg mu q : 0 < f -> 0 < sg -> 0 < mu ->
  (ignores_permittivity (fun e => wavenumber f sg mu e q) <-> ignores_permittivity (fun e => sigma_hat f sg e q)) /\
  ((ignores_permittivity (fun e => wavenumber f sg mu e q) <-> ignores_permittivity (fun e => skin_depth f sg mu e q)) <->
   q <> OtherObject true).
Proof.
  intros F S M. pose proof (sigma_hat_ignores f sg q F) as A. pose proof (wavenumber_ignores f sg mu q F M) as B.
  pose proof (skin_depth_ignores f sg mu q F S M) as D.
  change (@Proof_FDEM3.ignores_permittivity) with (@ignores_permittivity) in *.
  split; [tauto|]. split.
  - intros E Q. subst q. simpl in *. assert (X : true = true) by reflexivity. apply D in X. apply E in X. apply B in X. discriminate.
  - intro Q. rewrite B, D. destruct q as [| |[]]; simpl; try tauto.
Qed.

(** ** C60, C61: what the fields are in terms of each other *)
Lemma ed_maxwell_quasistatic s p : is_True (fd_qs (ed_med s)) = true -> fd_sigma (ed_med s) <> 0 -> p <> ed_loc s ->
  is_ccurl (ed_E s) p (cvscal (- Ci * RtoC (2 * PI * fd_freq (ed_med s)))%C (ed_B s p)) /\
  is_ccurl (ed_H s) p (ed_J s p) /\ ed_J s p = cvscal (fd_sigma (ed_med s)) (ed_E s p) /\
  ed_B s p = cvscal (fd_mu (ed_med s)) (ed_H s p) /\ is_cdiv (ed_E s) p 0 /\ is_cdiv (ed_H s) p 0.
Proof.
  intros Q S P. split; [|split; [|split; [|split; [|split]]]]; try reflexivity.
  - pose proof (ed_curl_E s p S P) as X.
    assert (E : fd_sigma_hat (ed_med s) = RtoC (fd_sigma (ed_med s))) by (unfold fd_sigma_hat, sigma_hat; rewrite Q; reflexivity).
    rewrite E in X. unfold ed_B. rewrite cvscal_cvscal.
    replace (- Ci * RtoC (2 * PI * fd_freq (ed_med s)) * fd_mu (ed_med s))%C
      with (- Ci * fd_omega (ed_med s) * fd_mu (ed_med s) * (fd_sigma (ed_med s) / fd_sigma (ed_med s)))%C; [exact X|].
    unfold fd_omega, omega. assert (NS := RtoC_neq _ S). field. exact NS.
  - unfold ed_J. apply ed_curl_H; assumption.
  - apply ed_div_E; assumption.
  - apply ed_div_H; assumption.
Qed.

Lemma ed_maxwell_general s p : fd_sigma (ed_med s) <> 0 -> p <> ed_loc s ->
  let hat := (RtoC (fd_sigma (ed_med s)) + (if is_True (fd_qs (ed_med s)) then 0 else Ci * RtoC (2 * PI * fd_freq (ed_med s)) * fd_eps (ed_med s)))%C in
  is_ccurl (ed_A s) p (ed_H s p) /\
  is_ccurl (ed_H s) p (cvscal (fd_sigma (ed_med s)) (ed_E s p)) /\
  is_ccurl (ed_E s) p (cvscal (- Ci * RtoC (2 * PI * fd_freq (ed_med s)) * fd_mu (ed_med s) * (hat / fd_sigma (ed_med s)))%C (ed_H s p)) /\
  is_cdiv (ed_E s) p 0 /\ is_cdiv (ed_H s) p 0.
Proof.
  intros S P. cbv zeta. split; [apply ed_curl_A; exact P|]. split; [apply ed_curl_H; assumption|].
  split; [|split; [apply ed_div_E; assumption|apply ed_div_H; assumption]].
  pose proof (ed_curl_E s p S P) as X. unfold fd_sigma_hat, sigma_hat, fd_omega, omega in X.
  destruct (is_True (fd_qs (ed_med s))); [rewrite Cplus_0_r|]; exact X.
Qed.

(** the electric field a user would need: E' = curl H / sigma_hat *)
Lemma ed_corrected s p : 0 < fd_freq (ed_med s) -> 0 < fd_sigma (ed_med s) -> p <> ed_loc s ->
  let E' q := cvscal (RtoC (fd_sigma (ed_med s)) / fd_sigma_hat (ed_med s))%C (ed_E s q) in
  is_ccurl E' p (cvscal (- Ci * RtoC (2 * PI * fd_freq (ed_med s)))%C (ed_B s p)) /\
  is_ccurl (ed_H s) p (cvscal (fd_sigma_hat (ed_med s)) (E' p)).
Proof.
  intros F S P. cbv zeta.
  assert (NS : RtoC (fd_sigma (ed_med s)) <> 0%C) by (apply RtoC_neq; lra).
  assert (NH : fd_sigma_hat (ed_med s) <> 0%C).
  { unfold fd_sigma_hat, sigma_hat. destruct (is_True _); [exact NS|]. intro E. apply (f_equal Re) in E.
    cbv [fst RtoC Cplus Cmult Ci snd] in E. lra. }
  split.
  - assert (S' : fd_sigma (ed_med s) <> 0) by lra.
    pose proof (is_ccurl_cscal (RtoC (fd_sigma (ed_med s)) / fd_sigma_hat (ed_med s))%C _ _ _ (ed_curl_E s p S' P)) as X.
    rewrite cvscal_cvscal in X. unfold ed_B. rewrite cvscal_cvscal.
    match type of X with is_ccurl _ _ (cvscal ?a _) => match goal with |- is_ccurl _ _ (cvscal ?b _) => replace b with a; [exact X|] end end.
    unfold fd_omega, omega. field. split; assumption.
  - rewrite cvscal_cvscal.
    replace (fd_sigma_hat (ed_med s) * (RtoC (fd_sigma (ed_med s)) / fd_sigma_hat (ed_med s)))%C with (RtoC (fd_sigma (ed_med s))) by (field; exact NH).
    apply ed_curl_H; [lra|exact P].
Qed.

Lemma mf_maxwell s p : p <> mf_loc s ->
  let hat := (RtoC (fd_sigma (mf_med s)) + (if is_True (fd_qs (mf_med s)) then 0 else Ci * RtoC (2 * PI * fd_freq (mf_med s)) * fd_eps (mf_med s)))%C in
  is_ccurl (mf_E s) p (cvscal (- Ci * RtoC (2 * PI * fd_freq (mf_med s)))%C (mf_B s p)) /\
  is_ccurl (mf_H s) p (cvscal hat (mf_E s p)) /\
  is_ccurl (mf_A s) p (cvscal (- (1))%C (mf_E s p)) /\
  mf_B s p = cvscal (fd_mu (mf_med s)) (mf_H s p) /\ mf_J s p = cvscal (fd_sigma (mf_med s)) (mf_E s p) /\
  is_cdiv (mf_E s) p 0 /\ is_cdiv (mf_H s) p 0.
Proof.
  intro P. cbv zeta. split; [|split; [|split; [apply mf_curl_A; exact P|split; [reflexivity|split; [reflexivity|split; [apply mf_div_E|apply mf_div_H]; exact P]]]]].
  - pose proof (mf_curl_E s p P) as X. unfold mf_B. rewrite cvscal_cvscal. unfold fd_omega, omega in X.
    replace (- Ci * RtoC (2 * PI * fd_freq (mf_med s)) * fd_mu (mf_med s))%C with (- (Ci * RtoC (2 * PI * fd_freq (mf_med s)) * fd_mu (mf_med s)))%C by ring.
    exact X.
  - pose proof (mf_curl_H s p P) as X. unfold fd_sigma_hat, sigma_hat, omega in X.
    destruct (is_True (fd_qs (mf_med s))); [rewrite Cplus_0_r|]; exact X.
Qed.

(** ** C62 *)
Lemma pw_maxwell s p : 0 < fd_freq (pw_med s) -> 0 < fd_mu (pw_med s) -> vz (pw_orient s) = 0 ->
  let hat := (RtoC (fd_sigma (pw_med s)) + (if is_True (fd_qs (pw_med s)) then 0 else Ci * RtoC (2 * PI * fd_freq (pw_med s)) * fd_eps (pw_med s)))%C in
  is_ccurl (pw_E s) p (cvscal (- Ci * RtoC (2 * PI * fd_freq (pw_med s)))%C (pw_B s p)) /\
  is_ccurl (pw_H s) p (cvscal hat (pw_E s p)) /\
  pw_B s p = cvscal (fd_mu (pw_med s)) (pw_H s p) /\ pw_J s p = cvscal (fd_sigma (pw_med s)) (pw_E s p) /\
  is_cdiv (pw_E s) p 0 /\ is_cdiv (pw_B s) p 0.
Proof.
  intros F M Z. cbv zeta. split; [exact (pw_curl_E s F Z p)|]. split; [|split; [|split; [reflexivity|split; [exact (pw_div_E s Z p)|exact (pw_div_B s p)]]]].
  - pose proof (pw_curl_H s F M Z p) as X. unfold fd_sigma_hat, sigma_hat, omega in X.
    destruct (is_True (fd_qs (pw_med s))); [rewrite Cplus_0_r|]; exact X.
  - unfold pw_H. rewrite cvscal_cvscal. replace (fd_mu (pw_med s) * / fd_mu (pw_med s))%C with (RtoC 1).
    + destruct (pw_B s p) as [a b c]. unfold cvscal; cbn [cvx cvy cvz]. f_equal; ring.
    + assert (N : RtoC (fd_mu (pw_med s)) <> 0%C) by (apply RtoC_neq; lra). field. exact N.
Qed.

Lemma pw_decay s : 0 < fd_freq (pw_med s) -> 0 < fd_sigma (pw_med s) -> 0 < fd_mu (pw_med s) ->
  exists d, 0 < d /\ (truth (fd_qs (pw_med s)) = true -> is_True (fd_qs (pw_med s)) = true -> d = fd_skin_depth (pw_med s)) /\
  forall p q,
    (Cmod (cvx (pw_E s p)) = Cmod (cvx (pw_E s q)) * exp ((vz p - vz q) / d)) /\
    (Cmod (cvy (pw_E s p)) = Cmod (cvy (pw_E s q)) * exp ((vz p - vz q) / d)) /\
    (Cmod (cvx (pw_B s p)) = Cmod (cvx (pw_B s q)) * exp ((vz p - vz q) / d)) /\
    (Cmod (cvy (pw_B s p)) = Cmod (cvy (pw_B s q)) * exp ((vz p - vz q) / d)).
Proof.
  intros F S M. destruct (wavenumber_branch _ _ _ (fd_eps (pw_med s)) (fd_qs (pw_med s)) F S M) as [_ N].
  fold (fd_k (pw_med s)) in N.
  exists (/ - Im (fd_k (pw_med s))). split; [apply Rinv_0_lt_compat; lra|]. split.
  - intros T Q. unfold fd_k, fd_skin_depth.
    assert (W : fd_qs (pw_med s) = PyTrue) by (destruct (fd_qs (pw_med s)); try discriminate; reflexivity).
    rewrite W, im_wavenumber_qs by assumption. unfold skin_depth. cbn [truth].
    pose proof (omega_pos _ F). pose proof (Rmult_lt_0_compat _ _ (Rmult_lt_0_compat _ _ H S) M) as P.
    replace (2 / (omega (fd_freq (pw_med s)) * fd_sigma (pw_med s) * fd_mu (pw_med s)))
      with (/ (omega (fd_freq (pw_med s)) * fd_sigma (pw_med s) * fd_mu (pw_med s) / 2)) by (field; repeat split; lra).
    rewrite sqrt_inv. f_equal. ring.
  - intros p q.
    assert (G : forall (a b : C), Cmod (a * cexp (Ci * fd_k (pw_med s) * RtoC (vz p)) * b)%C
              = Cmod (a * cexp (Ci * fd_k (pw_med s) * RtoC (vz q)) * b)%C * exp ((vz p - vz q) / / - Im (fd_k (pw_med s)))).
    { intros a b. rewrite !Cmod_mult, !pw_mod.
      replace (exp (- Im (fd_k (pw_med s)) * vz p)) with (exp (- Im (fd_k (pw_med s)) * vz q) * exp ((vz p - vz q) / / - Im (fd_k (pw_med s)))); [ring|].
      rewrite <- exp_plus. f_equal. field. lra. }
    rewrite !pw_E_z, !pw_B_z. unfold cvof; cbn [cvx cvy cvz].
    split; [|split; [|split]]; apply G.
Qed.

(** ** C63 *)
Lemma mf_static s p h : fd_freq (mf_med s) = 0 -> p <> mf_loc s -> fd_mu (mf_med s) <> 0 ->
  mdipole_field (MD (mf_moment s) (mf_orient s) (mf_loc s) (fd_mu (mf_med s))) "cartesian"%string p = Ok h ->
  mf_H s p = cvof 1%C h.
Proof.
  intros F P M E. rewrite mf_H_zero by assumption.
  pose proof (static_is_static (MD (mf_moment s) (mf_orient s) (mf_loc s) (fd_mu (mf_med s))) p P M) as X. cbn [md_moment md_orient md_loc] in X.
  rewrite E in X. injection X as ->. reflexivity.
Qed.

Lemma mdipole_total s p : p <> md_loc s -> md_mu s <> 0 -> exists h, mdipole_field s "cartesian"%string p = Ok h.
Proof. intros P M. eexists. apply static_is_static; assumption. Qed.

Lemma ed_static s p : fd_freq (ed_med s) = 0 -> 0 < fd_sigma (ed_med s) -> p <> ed_loc s ->
  exists e, ed_E s p = cvof 1%C e /\
    is_grad (fun q => ed_current s * ed_length s * vdot (ed_orient s) (vsub q (ed_loc s)) / (4 * PI * fd_sigma (ed_med s) * vnorm (vsub q (ed_loc s)) ^ 3)) p (vopp e).
Proof.
  intros F S P. eexists. split; [apply ed_E_zero; assumption|].
  pose proof (static_dipole_grad (ed_current s * ed_length s / (4 * PI * fd_sigma (ed_med s))) (ed_orient s) (vsub p (ed_loc s)) (vsub_nz _ _ P)) as X.
  apply is_grad_shift in X. eapply is_grad_ext_near; [|exact X].
  apply (near_impl p (fun q => q <> ed_loc s)); [|apply near_off; exact P].
  intros q Hq. pose proof PI_RGT_0. pose proof (vnorm_pos _ (vsub_nz _ _ Hq)). field. repeat split; lra.
Qed.

Lemma ed_static_H s p : fd_freq (ed_med s) = 0 -> p <> ed_loc s ->
  ed_H s p = cvof 1%C (vscal (ed_current s * ed_length s / (4 * PI * vnorm (vsub p (ed_loc s)) ^ 3)) (vcross (ed_orient s) (vsub p (ed_loc s)))) .
Proof. apply ed_H_zero. Qed.

(** ** C64 *)
Lemma mh_potential iv kv mu_0 s : 0 < mu_0 -> 0 < fd_freq (mh_med s) -> 0 < fd_sigma (mh_med s) ->
  vz (mh_orient s) = 0 ->
  exists pot : R -> R -> C, forall q, beside q (mh_loc s) ->
    is_cderive (fun t => pot t (vy q)) (vx q) (- cvx (mh_H iv kv mu_0 s false q))%C /\
    is_cderive (fun t => pot (vx q) t) (vy q) (- cvy (mh_H iv kv mu_0 s false q))%C.
Proof.
  intros M F S Z.
  set (k := mh_k mu_0 s). assert (Kn : k <> 0%C) by (apply mh_k_neq; assumption).
  set (c := RtoC (mh_moment s / (4 * PI))).
  exists (fun a b => (c * mh_pot k (vx (mh_orient s)) (vy (mh_orient s)) (a - vx (mh_loc s)) (b - vy (mh_loc s)))%C).
  intros q O. assert (O' : off s q) by exact O. rewrite !(mh_form _ _ _ _ _ _ O'). fold k. rewrite Z.
  assert (XY : vx q - vx (mh_loc s) <> 0 \/ vy q - vy (mh_loc s) <> 0) by (destruct O; [left|right]; lra).
  destruct (mh_pot_grad iv kv k (vx (mh_orient s)) (vy (mh_orient s)) _ _ Kn XY) as [A B].
  assert (DX : is_derive (fun t => t - vx (mh_loc s)) (vx q) 1) by (auto_derive; [exact I|ring]).
  assert (DY : is_derive (fun t => t - vy (mh_loc s)) (vy q) 1) by (auto_derive; [exact I|ring]).
  split.
  - eapply is_cderive_eq; [exact (CD_scal c _ _ _ (CD_comp _ (fun t => t - vx (mh_loc s)) (vx q) _ _ A DX))|].
    cbn [cvx cvsub cvscal cvzero]. fold c.
    generalize (cvx (mh_vec iv kv k (vx (mh_orient s)) (vy (mh_orient s)) 0 (vx q - vx (mh_loc s)) (vy q - vy (mh_loc s)))). intro w. ring.
  - eapply is_cderive_eq; [exact (CD_scal c _ _ _ (CD_comp _ (fun t => t - vy (mh_loc s)) (vy q) _ _ B DY))|].
    cbn [cvy cvsub cvscal cvzero]. fold c.
    generalize (cvy (mh_vec iv kv k (vx (mh_orient s)) (vy (mh_orient s)) 0 (vx q - vx (mh_loc s)) (vy q - vy (mh_loc s)))). intro w. ring.
Qed.

Lemma mh_array iv kv mu_0 s fs sec xy : exists h,
  mh_magnetic_field iv kv mu_0 s (Array fs) sec xy = Ok h /\ List.length h = List.length fs /\
  forall i j f p, nth_error fs i = Some f ->
    nth_error (match xy with OnePoint p => [p] | Grid ps => ps end) j = Some p ->
    exists row, nth_error h i = Some row /\ nth_error row j = Some (mh_H iv kv mu_0 (with_freq s f) sec p).
Proof.
  destruct xy as [p|ps]; cbn [mh_magnetic_field]; eexists; (split; [reflexivity|]); (split; [apply map_length|]);
    intros i j f p' Hi Hj; rewrite nth_error_map, Hi; cbn [option_map]; eexists; (split; [reflexivity|]).
  - destruct j as [|[|j]]; cbn in Hj |- *; [injection Hj as ->; reflexivity|discriminate|discriminate].
  - rewrite nth_error_map, Hj. reflexivity.
Qed.

Lemma mh_scalar iv kv mu_0 s f sec ps :
  mh_magnetic_field iv kv mu_0 s (Scalar f) sec (Grid ps) = Raise IndexError.
Proof. reflexivity. Qed.

(** ** C68 *)
Lemma loop_linear f sg mu a I n sec c :
  loop_hz f sg mu a (c * I) n sec = (RtoC c * loop_hz f sg mu a I n sec)%C /\
  loop_hz f sg mu a I (c * n) sec = (RtoC c * loop_hz f sg mu a I n sec)%C.
Proof.
  unfold loop_hz. cbv zeta. split.
  - replace (c * I / 2 / a) with (c * (I / 2 / a)) by (unfold Rdiv; ring). rewrite !RtoC_mult. unfold Cdiv. destruct sec; ring.
  - rewrite RtoC_mult. ring.
Qed.
