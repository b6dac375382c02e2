(** Harmonic whole-space dipoles: the model's fields are the radial fields (C60, C61, C63). *)
From Coq Require Import Reals Lra List String.
From Coquelicot Require Import Coquelicot.
From Verif Require Import Vec3 Calculus Deriv Cplx Radial Numpy Model_Static Model_FDEM Proof_Static2 Proof_FDEM.
Open Scope R_scope.

Lemma is_ccurl_ext_near F G p c d :
  near p (fun q => F q = G q) -> c = d -> is_ccurl F p c -> is_ccurl G p d.
Proof.
  intros E <- [[J [A B]] [K [A' B']]]. split.
  - exists J; split; [|exact B]. revert A. apply is_jac_ext_near.
    revert E. apply near_impl. intros q E; rewrite E; reflexivity.
  - exists K; split; [|exact B']. revert A'. apply is_jac_ext_near.
    revert E. apply near_impl. intros q E; rewrite E; reflexivity.
Qed.

Lemma is_cdiv_ext_near F G p c d :
  near p (fun q => F q = G q) -> c = d -> is_cdiv F p c -> is_cdiv G p d.
Proof.
  intros E <- [[J [A B]] [K [A' B']]]. split.
  - exists J; split; [|exact B]. revert A. apply is_jac_ext_near.
    revert E. apply near_impl. intros q E; rewrite E; reflexivity.
  - exists K; split; [|exact B']. revert A'. apply is_jac_ext_near.
    revert E. apply near_impl. intros q E; rewrite E; reflexivity.
Qed.

Lemma near_off p p0 : p <> p0 -> near p (fun q => q <> p0).
Proof.
  intro H. assert (X : 0 < vnorm (vsub p p0)) by (apply vnorm_pos, vsub_nz, H).
  apply (near_impl _ (fun q => 0 < vnorm (vsub q p0))).
  - intros q L E. subst q. replace (vsub p0 p0) with vzero in L by (veq; ring).
    unfold vnorm, vnorm2 in L; simpl in L. replace (0 * 0 + 0 * 0 + 0 * 0) with 0 in L by ring.
    rewrite sqrt_0 in L. lra.
  - apply near_norm_gt, X.
Qed.

Lemma cscal_cvof a b v : cvscal a (cvof b v) = cvof (a * b)%C v.
Proof. apply cvec_eq; simpl; ring. Qed.
Lemma cscal_crfield a f g n q : cvscal a (crfield f g n q) = crfield (fun t => a * f t)%C (fun t => a * g t)%C n q.
Proof. unfold crfield. apply cvec_eq; simpl; ring. Qed.
Lemma cvscal_cvscal a b v : cvscal a (cvscal b v) = cvscal (a * b)%C v.
Proof. apply cvec_eq; simpl; ring. Qed.
Lemma cvscal_1 v : cvscal (RtoC 1) v = v.
Proof. apply cvec_eq; simpl; ring. Qed.

Section Terms.
  Variables (q n : vec3) (k c : C).
  Hypothesis Hq : q <> vzero.
  Let r := vnorm q.
  Let u := (Ci * k)%C.

  Lemma rposT : 0 < r. Proof. exact (vnorm_pos _ Hq). Qed.
  Lemma rneqT : RtoC r <> RtoC 0. Proof. pose proof rposT; apply RtoC_neq; lra. Qed.

  Lemma RtoC_vdiv v : RtoC (vx (vdiv v r)) = (RtoC (vx v) / r)%C /\ RtoC (vy (vdiv v r)) = (RtoC (vy v) / r)%C
     /\ RtoC (vz (vdiv v r)) = (RtoC (vz v) / r)%C.
  Proof. pose proof rposT. unfold vdiv; cbn [vx vy vz]. rewrite !RtoC_div by lra. auto. Qed.

  (** the shared bracket *)
  Lemma terms_profile (front : R -> C) :
    front r = (c * (/ RtoC r * / RtoC r * / RtoC r) * cexp (- (u * r)))%C ->
    dipole_terms (front r) (k * r)%C (vdiv q r) n = crfield (pE0 c u) (pE1 c u) n q.
  Proof.
    intro E. unfold dipole_terms. rewrite E. clear E.
    pose proof rneqT as N. destruct (RtoC_vdiv q) as [X [Y Z]].
    assert (D : RtoC (vdot (vdiv q r) n) = (RtoC (vdot n q) / r)%C).
    { pose proof rposT. rewrite <- RtoC_div by lra. f_equal. unfold vdot, vdiv; cbn [vx vy vz]. field; lra. }
    assert (K : (k * k)%C = (- (u * u))%C).
    { unfold u. replace (- (Ci * k * (Ci * k)))%C with (- (Ci * Ci) * (k * k))%C by ring. rewrite Ci2. ring. }
    unfold crfield, pE0, pE1. fold r.
    assert (K2 : ((k * r) ^ 2)%C = (- (u * u) * (r * r))%C).
    { cbn [cpow]. rewrite <- K. ring. }
    rewrite K2, D.
    replace (Ci * (k * r))%C with (u * r)%C by (unfold u; ring).
    set (e := cexp _). clearbody e u. generalize dependent (RtoC (vdot n q)). intros d _.
    unfold cvscal, cvadd, cvof. apply cvec_eq; cbn [cvx cvy cvz]; rewrite ?X, ?Y, ?Z; cnum; field; exact N.
  Qed.

  Lemma cross_profile (front : R -> C) :
    front r = (c * (/ RtoC r * / RtoC r) * ((u * r + 1) * cexp (- (u * r))))%C ->
    cvof (front r) (vcross n (vdiv q r)) = cxfield (pH c u) n q.
  Proof.
    intro E. rewrite E. clear E. pose proof rneqT as N. pose proof rposT as P.
    unfold cxfield, pH. fold r. set (e := cexp _). clearbody e u.
    assert (W : vcross n (vdiv q r) = vscal (/ r) (vcross n q)).
    { unfold vcross, vdiv, vscal. veq; field; lra. }
    rewrite W. unfold vscal, cvof. apply cvec_eq; cbn [cvx cvy cvz vx vy vz]; rewrite !RtoC_mult, RtoC_inv by lra;
      field; exact N.
  Qed.
End Terms.

Section EDip.
  Variable s : edip.
  Let m := ed_med s.
  Let k := fd_k m.
  Let u := (Ci * k)%C.
  Let n := ed_orient s.
  Let c := RtoC (ed_current s * ed_length s / (4 * PI)).

  Lemma ed_A_profile q : q <> ed_loc s -> ed_A s q = crfield (pA c u) (fun _ => RtoC 0) n (vsub q (ed_loc s)).
  Proof.
    intro H. pose proof (vsub_nz _ _ H) as Hq. pose proof (vnorm_pos _ Hq) as P. pose proof PI_RGT_0.
    unfold ed_A, crfield, pA. fold m k n. set (v := vsub q (ed_loc s)) in *.
    replace (- Ci * k * vnorm v)%C with (- (u * vnorm v))%C by (unfold u; ring).
    replace (RtoC (ed_current s * ed_length s / (4 * PI * vnorm v))) with (c * / RtoC (vnorm v))%C.
    - generalize (cexp (- (u * vnorm v)))%C. intro e. apply cvec_eq; simpl; ring.
    - unfold c. rewrite <- RtoC_inv by lra. rewrite <- RtoC_mult. f_equal. field. split; lra.
  Qed.

  Lemma ed_H_profile q : q <> ed_loc s -> ed_H s q = cxfield (pH c u) n (vsub q (ed_loc s)).
  Proof.
    intro H. pose proof (vsub_nz _ _ H) as Hq. pose proof (vnorm_pos _ Hq) as P. pose proof PI_RGT_0.
    unfold ed_H. fold m k n. set (v := vsub q (ed_loc s)) in *.
    apply (cross_profile v n k c Hq (fun r => (RtoC (ed_current s * ed_length s / (4 * PI * r ^ 2)) * (Ci * (k * r) + 1) *
     cexp (- (Ci * (k * r))))%C)).
    replace (Ci * (k * vnorm v))%C with (Ci * k * vnorm v)%C by ring.
    replace (RtoC (ed_current s * ed_length s / (4 * PI * vnorm v ^ 2))) with (c * (/ RtoC (vnorm v) * / RtoC (vnorm v)))%C.
    - ring.
    - unfold c. rewrite <- RtoC_inv by lra. rewrite <- !RtoC_mult. f_equal. field. split; lra.
  Qed.

  Hypothesis Hsig : fd_sigma m <> 0.

  Lemma ed_E_profile q : q <> ed_loc s ->
    ed_E s q = cvscal (/ RtoC (fd_sigma m))%C (crfield (pE0 c u) (pE1 c u) n (vsub q (ed_loc s))).
  Proof.
    intro H. pose proof (vsub_nz _ _ H) as Hq. pose proof (vnorm_pos _ Hq) as P. pose proof PI_RGT_0.
    unfold ed_E. fold m k n. set (v := vsub q (ed_loc s)) in *.
    rewrite (terms_profile v n k (/ RtoC (fd_sigma m) * c)%C Hq
      (fun r => (RtoC (ed_current s * ed_length s / (4 * PI * fd_sigma m * r ^ 3)) * cexp (- (Ci * (k * r))))%C)).
    - rewrite cscal_crfield. unfold crfield. unfold pE0, pE1. fold u.
      apply cvec_eq; cbn [cvx cvy cvz cvadd cvof]; ring.
    - replace (Ci * (k * vnorm v))%C with (Ci * k * vnorm v)%C by ring.
      f_equal. unfold c. rewrite <- !RtoC_inv by lra. rewrite <- !RtoC_mult. f_equal. field. repeat split; lra.
  Qed.

  Lemma ksq : (- (u * u))%C = (- Ci * fd_omega m * fd_mu m * fd_sigma_hat m)%C.
  Proof.
    unfold u. replace (- (Ci * k * (Ci * k)))%C with (- (Ci * Ci) * (k * k))%C by ring. rewrite Ci2.
    unfold k, fd_k. rewrite wavenumber_sq. unfold fd_omega, fd_sigma_hat. ring.
  Qed.

  Variable p : vec3.
  Hypothesis Hp : p <> ed_loc s.
  Let Hv : vsub p (ed_loc s) <> vzero := vsub_nz _ _ Hp.

  Lemma ed_curl_A : is_ccurl (ed_A s) p (ed_H s p).
  Proof.
    eapply is_ccurl_ext_near; [| |exact (is_ccurl_shift _ (ed_loc s) p _ (curl_pA c u n _ Hv))].
    - apply (near_impl _ _ _ (fun q H => eq_sym (ed_A_profile q H))), near_off, Hp.
    - symmetry; apply ed_H_profile, Hp.
  Qed.

  Lemma ed_curl_H : is_ccurl (ed_H s) p (cvscal (RtoC (fd_sigma m)) (ed_E s p)).
  Proof.
    eapply is_ccurl_ext_near; [| |exact (is_ccurl_shift _ (ed_loc s) p _ (curl_pH c u n _ Hv))].
    - apply (near_impl _ _ _ (fun q H => eq_sym (ed_H_profile q H))), near_off, Hp.
    - rewrite (ed_E_profile p Hp), cvscal_cvscal, Cinv_r by (apply RtoC_neq, Hsig). symmetry; apply cvscal_1.
  Qed.

  Lemma ed_div_H : is_cdiv (ed_H s) p (RtoC 0).
  Proof.
    eapply is_cdiv_ext_near; [| reflexivity|exact (is_cdiv_shift _ (ed_loc s) p _ (div_pH c u n _ Hv))].
    apply (near_impl _ _ _ (fun q H => eq_sym (ed_H_profile q H))), near_off, Hp.
  Qed.
End EDip.

Lemma is_ccurl_cscal a F p c : is_ccurl F p c -> is_ccurl (fun q => cvscal a (F q)) p (cvscal a c).
Proof.
  intros [A B]. destruct a as [a b]. split.
  - pose proof (is_curl_add _ _ _ _ _ (is_curl_scal a _ _ _ A) (is_curl_scal (- b) _ _ _ B)) as X.
    revert X. apply is_curl_ext'; [intro q|]; parts; veq; ring.
  - pose proof (is_curl_add _ _ _ _ _ (is_curl_scal a _ _ _ B) (is_curl_scal b _ _ _ A)) as X.
    revert X. apply is_curl_ext'; [intro q|]; parts; veq; ring.
Qed.

Lemma is_cdiv_cscal a F p c : is_cdiv F p c -> is_cdiv (fun q => cvscal a (F q)) p (a * c)%C.
Proof.
  intros [A B]. destruct a as [a b]. split.
  - pose proof (is_div_add _ _ _ _ _ (is_div_scal a _ _ _ A) (is_div_scal (- b) _ _ _ B)) as X.
    revert X. apply is_div_ext'; [intro q|]; parts; try (veq; ring). ring.
  - pose proof (is_div_add _ _ _ _ _ (is_div_scal a _ _ _ B) (is_div_scal b _ _ _ A)) as X.
    revert X. apply is_div_ext'; [intro q|]; parts; try (veq; ring). ring.
Qed.

Section EDip2.
  Variable s : edip.
  Let m := ed_med s.
  Variable p : vec3.
  Hypothesis Hsig : fd_sigma m <> 0.
  Hypothesis Hp : p <> ed_loc s.
  Let Hv : vsub p (ed_loc s) <> vzero := vsub_nz _ _ Hp.

  Lemma ed_div_E : is_cdiv (ed_E s) p (RtoC 0).
  Proof.
    eapply is_cdiv_ext_near; [| |exact (is_cdiv_cscal (/ RtoC (fd_sigma m))%C _ _ _
       (is_cdiv_shift _ (ed_loc s) p _ (div_pE (RtoC (ed_current s * ed_length s / (4 * PI))) (Ci * fd_k m)%C (ed_orient s) _ Hv)))].
    - apply (near_impl _ _ _ (fun q H => eq_sym (ed_E_profile s Hsig q H))), near_off, Hp.
    - ring.
  Qed.

  (** the discrepancy factor: sigma_hat / sigma *)
  Lemma ed_curl_E : is_ccurl (ed_E s) p
    (cvscal (- Ci * fd_omega m * fd_mu m * (fd_sigma_hat m / RtoC (fd_sigma m)))%C (ed_H s p)).
  Proof.
    eapply is_ccurl_ext_near; [| |exact (is_ccurl_cscal (/ RtoC (fd_sigma m))%C _ _ _
       (is_ccurl_shift _ (ed_loc s) p _ (curl_pE (RtoC (ed_current s * ed_length s / (4 * PI))) (Ci * fd_k m)%C (ed_orient s) _ Hv)))].
    - apply (near_impl _ _ _ (fun q H => eq_sym (ed_E_profile s Hsig q H))), near_off, Hp.
    - rewrite (ed_H_profile s p Hp), cvscal_cvscal. pose proof (ksq s) as K. fold m in K |- *. rewrite K. f_equal. unfold Cdiv. ring.
  Qed.
End EDip2.

(** ** the magnetic dipole *)
Section MDip.
  Variable s : mdip.
  Let m := mf_med s.
  Let k := fd_k m.
  Let u := (Ci * k)%C.
  Let n := mf_orient s.
  Let c := RtoC (mf_moment s / (4 * PI)).
  Let z := (Ci * fd_omega m * fd_mu m)%C.

  Lemma mf_A_profile q : q <> mf_loc s ->
    mf_A s q = cvscal z (crfield (pA c u) (fun _ => RtoC 0) n (vsub q (mf_loc s))).
  Proof.
    intro H. pose proof (vsub_nz _ _ H) as Hq. pose proof (vnorm_pos _ Hq) as P. pose proof PI_RGT_0.
    unfold mf_A, crfield, pA. fold m k n. set (v := vsub q (mf_loc s)) in *.
    replace (- Ci * k * vnorm v)%C with (- (u * vnorm v))%C by (unfold u; ring).
    replace (Ci * fd_omega m * fd_mu m * mf_moment s / RtoC (4 * PI * vnorm v))%C with (z * c * / RtoC (vnorm v))%C.
    - generalize (cexp (- (u * vnorm v)))%C. intro e. apply cvec_eq; simpl; ring.
    - unfold c, z. rewrite RtoC_div, !RtoC_mult by lra. field. repeat split; apply RtoC_neq; lra.
  Qed.

  Lemma mf_E_profile q : q <> mf_loc s -> mf_E s q = cvscal (- z)%C (cxfield (pH c u) n (vsub q (mf_loc s))).
  Proof.
    intro H. pose proof (vsub_nz _ _ H) as Hq. pose proof (vnorm_pos _ Hq) as P. pose proof PI_RGT_0.
    unfold mf_E. fold m k n. set (v := vsub q (mf_loc s)) in *.
    replace (vcross (vdiv v (vnorm v)) n) with (vscal (-1) (vcross n (vdiv v (vnorm v)))) by (unfold vcross, vscal; veq; ring).
    assert (G : forall f w, cvof f (vscal (-1) w) = cvof (- f)%C w).
    { intros f w. unfold cvof, vscal. apply cvec_eq; cbn [cvx cvy cvz vx vy vz]; rewrite !RtoC_mult, Cm1; ring. }
    rewrite G. clear G.
    rewrite (cross_profile v n k (- z * c)%C Hq (fun r => (- ((Ci * fd_omega m * fd_mu m * mf_moment s) / RtoC (4 * PI * r ^ 2)
      * (Ci * (k * r) + 1) * cexp (- (Ci * (k * r)))))%C)).
    - unfold cxfield. rewrite cscal_cvof. f_equal. unfold pH. fold u. ring.
    - replace (Ci * (k * vnorm v))%C with (Ci * k * vnorm v)%C by ring.
      replace (Ci * fd_omega m * fd_mu m * mf_moment s / RtoC (4 * PI * vnorm v ^ 2))%C
        with (z * c * (/ RtoC (vnorm v) * / RtoC (vnorm v)))%C.
      + ring.
      + unfold c, z. rewrite pow_2, RtoC_div, !RtoC_mult by lra. field. repeat split; apply RtoC_neq; lra.
  Qed.

  Lemma mf_H_profile q : q <> mf_loc s -> mf_H s q = crfield (pE0 c u) (pE1 c u) n (vsub q (mf_loc s)).
  Proof.
    intro H. pose proof (vsub_nz _ _ H) as Hq. pose proof (vnorm_pos _ Hq) as P. pose proof PI_RGT_0.
    unfold mf_H. fold m k n. set (v := vsub q (mf_loc s)) in *.
    apply (terms_profile v n k c Hq (fun r => (RtoC (mf_moment s / (4 * PI * r ^ 3)) * cexp (- (Ci * (k * r))))%C)).
    replace (Ci * (k * vnorm v))%C with (Ci * k * vnorm v)%C by ring.
    f_equal. unfold c. rewrite <- !RtoC_inv by lra. rewrite <- !RtoC_mult. f_equal. field. repeat split; lra.
  Qed.

  Lemma mf_ksq : (- (u * u))%C = (- z * fd_sigma_hat m)%C.
  Proof.
    unfold u. replace (- (Ci * k * (Ci * k)))%C with (- (Ci * Ci) * (k * k))%C by ring. rewrite Ci2.
    unfold k, fd_k. rewrite wavenumber_sq. unfold z, fd_omega, fd_sigma_hat. ring.
  Qed.

  Variable p : vec3.
  Hypothesis Hp : p <> mf_loc s.
  Let Hv : vsub p (mf_loc s) <> vzero := vsub_nz _ _ Hp.

  Lemma mf_curl_A : is_ccurl (mf_A s) p (cvscal (- RtoC 1)%C (mf_E s p)).
  Proof.
    eapply is_ccurl_ext_near; [| |exact (is_ccurl_cscal z _ _ _ (is_ccurl_shift _ (mf_loc s) p _ (curl_pA c u n _ Hv)))].
    - apply (near_impl _ _ _ (fun q H => eq_sym (mf_A_profile q H))), near_off, Hp.
    - rewrite (mf_E_profile p Hp), cvscal_cvscal. f_equal. ring.
  Qed.

  Lemma mf_curl_E : is_ccurl (mf_E s) p (cvscal (- z)%C (mf_H s p)).
  Proof.
    eapply is_ccurl_ext_near; [| |exact (is_ccurl_cscal (- z)%C _ _ _ (is_ccurl_shift _ (mf_loc s) p _ (curl_pH c u n _ Hv)))].
    - apply (near_impl _ _ _ (fun q H => eq_sym (mf_E_profile q H))), near_off, Hp.
    - rewrite (mf_H_profile p Hp). reflexivity.
  Qed.

  Lemma mf_curl_H : is_ccurl (mf_H s) p (cvscal (fd_sigma_hat m) (mf_E s p)).
  Proof.
    eapply is_ccurl_ext_near; [| |exact (is_ccurl_shift _ (mf_loc s) p _ (curl_pE c u n _ Hv))].
    - apply (near_impl _ _ _ (fun q H => eq_sym (mf_H_profile q H))), near_off, Hp.
    - rewrite (mf_E_profile p Hp), cvscal_cvscal, mf_ksq. f_equal. ring.
  Qed.

  Lemma mf_div_E : is_cdiv (mf_E s) p (RtoC 0).
  Proof.
    eapply is_cdiv_ext_near; [| |exact (is_cdiv_cscal (- z)%C _ _ _ (is_cdiv_shift _ (mf_loc s) p _ (div_pH c u n _ Hv)))].
    - apply (near_impl _ _ _ (fun q H => eq_sym (mf_E_profile q H))), near_off, Hp.
    - ring.
  Qed.

  Lemma mf_div_H : is_cdiv (mf_H s) p (RtoC 0).
  Proof.
    eapply is_cdiv_ext_near; [| reflexivity|exact (is_cdiv_shift _ (mf_loc s) p _ (div_pE c u n _ Hv))].
    apply (near_impl _ _ _ (fun q H => eq_sym (mf_H_profile q H))), near_off, Hp.
  Qed.
End MDip.
