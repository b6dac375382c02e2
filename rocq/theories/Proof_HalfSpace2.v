(** The radial field: Nicholson's integral for I_n K_n, integrated by parts.  Generic mathematics. *)
From Coq Require Import Reals Lra Psatz.
From Coquelicot Require Import Coquelicot.
From Verif Require Import Vec3 Calculus Deriv Integral Cplx CplxTaylor SpecFun Spec_Fourier Spec_Hankel Spec_HalfSpace Proof_Fourier Proof_Hankel Proof_RTE6 Proof_RTE9 Proof_FDEM Proof_Bessel Proof_Bessel2 Proof_HalfSpace.
Open Scope R_scope.

Lemma gen_rescale (f : R -> R) L c : 0 < c -> is_RInt_gen f (at_right 0) inf L -> is_RInt_gen (fun x => c * f (c * x)) (at_right 0) inf L.
Proof.
  intros P H Q HQ. destruct (H Q HQ) as [A B [e He] [M HM] Hab].
  exists (fun a => A (c * a)) (fun b => B (c * b)).
  - assert (Pe : 0 < e / c) by (apply Rdiv_lt_0_compat; [apply cond_pos|exact P]). exists (mkposreal _ Pe). intros y Hy Hp. apply He.
    + unfold ball in *; cbn in *. unfold AbsRing_ball, abs, minus, plus, opp in *; cbn in *. rewrite Ropp_0, Rplus_0_r in *.
      rewrite Rabs_mult, (Rabs_right c) by lra. apply (Rmult_lt_compat_l c) in Hy; [|exact P]. replace (c * (e / c)) with (pos e) in Hy by (field; lra). exact Hy.
    + nra.
  - exists (M / c). intros y Hy. apply HM. apply (Rmult_lt_compat_l c) in Hy; [|exact P]. replace (c * (M / c)) with M in Hy by (field; lra). exact Hy.
  - intros a b Ha Hb. destruct (Hab (c * a) (c * b) Ha Hb) as [y [Hy Qy]]. exists y. split; [|exact Qy]. cbn in *.
    pose proof (is_RInt_comp_lin (V:=R_NormedModule) f c 0 a b y) as X. rewrite !Rplus_0_r in X. specialize (X Hy).
    eapply is_RInt_ext; [|exact X]. intros x _. cbv beta. rewrite Rplus_0_r. reflexivity.
Qed.
Lemma cint_rescale F L c : 0 < c -> is_cint F L -> is_cint (fun x => RtoC c * F (c * x)%R)%C L.
Proof.
  intros P [A B]. split.
  - eapply is_RInt_gen_ext; [|exact (gen_rescale _ _ c P A)]. apply filter_forall. intros ab x _. cbn. ring.
  - eapply is_RInt_gen_ext; [|exact (gen_rescale _ _ c P B)]. apply filter_forall. intros ab x _. cbn. ring.
Qed.
Lemma cint_unique F L M : is_cint F L -> is_cint F M -> L = M.
Proof.
  intros [A B] [A' B']. apply C_eq.
  - rewrite <- (is_RInt_gen_unique (V:=R_CompleteNormedModule) _ _ A). exact (is_RInt_gen_unique (V:=R_CompleteNormedModule) _ _ A').
  - rewrite <- (is_RInt_gen_unique (V:=R_CompleteNormedModule) _ _ B). exact (is_RInt_gen_unique (V:=R_CompleteNormedModule) _ _ B').
Qed.

Section Radial.
  Variable k : C.
  Hypothesis K : 0 < Re k.
  Let kn : k <> RtoC 0 := k_nz k K.
  Variable r : R.
  Hypothesis P : 0 < r.
  Notation u la := (uu k la).
  (** e^{-2 t}, la = k sinh t *)
  Definition ww (la : R) : C := ((u la - RtoC la) / k * ((u la - RtoC la) / k))%C.
  Lemma ww_refl la : ww la = (- refl k la)%C.
  Proof.
    unfold ww, refl. pose proof (uu_sq k la) as E. rewrite RtoC_mult in E. pose proof kn.
    transitivity ((u la * u la - (1 + 1) * RtoC la * u la + RtoC la * RtoC la) * / (k * k))%C; [field; assumption|]. rewrite E.
    replace (RtoC 2) with (1 + 1)%C by (rewrite <- RtoC_plus; f_equal; ring). field. assumption.
  Qed.
  Definition ff (la : R) : C := (ww la * (RtoC la * RtoC la) * / (k * k))%C.
  Lemma CD_ww la : is_cderive ww la (- (RtoC 2 * ww la * / u la))%C.
  Proof.
    unfold ww. pose proof (CD_uu k K la) as D. pose proof (uu_nz k K la) as N. pose proof kn as Kn.
    assert (Dv : is_cderive (fun la => (u la - RtoC la) / k)%C la (- ((u la - RtoC la) / k * / u la))%C).
    { eapply is_cderive_eq; [unfold Cdiv; apply CD_mult; [apply CD_minus; [exact D|apply CD_id]|apply CD_const]|]. cbv beta. field. split; assumption. }
    eapply is_cderive_eq; [apply (CD_mult (fun la => (u la - RtoC la) / k)%C (fun la => (u la - RtoC la) / k)%C); exact Dv|]. cbv beta.
    replace (RtoC 2) with (1 + 1)%C by (rewrite <- RtoC_plus; f_equal; ring). field. split; assumption.
  Qed.
  Lemma CD_ff la : is_cderive ff la ((ww la - ww la * ww la) * / u la)%C.
  Proof.
    unfold ff. pose proof (uu_nz k K la) as N. pose proof kn as Kn. pose proof (uu_sq k la) as E. rewrite RtoC_mult in E.
    eapply is_cderive_eq; [apply CD_mult; [apply (CD_mult ww (fun la => RtoC la * RtoC la)%C); [apply CD_ww|apply CD_mult; apply CD_id]|apply CD_const]|]. cbv beta.
    replace (RtoC 2) with (1 + 1)%C by (rewrite <- RtoC_plus; f_equal; ring).
    replace (ww la - ww la * ww la)%C with (ww la * (1 - ww la))%C by ring.
    replace (1 - ww la)%C with ((1 + 1) * RtoC la * (u la - RtoC la) * / (k * k))%C.
    - field. split; assumption.
    - unfold ww. transitivity (((k * k + RtoC la * RtoC la) - (u la * u la) + (1 + 1) * RtoC la * (u la - RtoC la)) * / (k * k))%C; [rewrite E; field; assumption|].
      transitivity ((k * k - (u la - RtoC la) * (u la - RtoC la)) * / (k * k))%C; field; assumption.
  Qed.
  (** ff is bounded *)
  Lemma uu_sum la : 0 < la -> la <= Cmod (u la + RtoC la)%C.
  Proof. intros Pl. pose proof (uu_re k K la) as U. pose proof (proj1 (parts_le_Cmod (u la + RtoC la)%C)) as H. change (Re (u la + RtoC la)%C) with (Re (u la) + la) in H. rewrite Rabs_right in H; lra. Qed.
  Lemma ww_alt la : 0 < la -> ww la = (k / (u la + RtoC la) * (k / (u la + RtoC la)))%C.
  Proof.
    intros Pl. pose proof (uu_sq k la) as E. rewrite RtoC_mult in E. pose proof kn as Kn.
    assert (N : (u la + RtoC la)%C <> RtoC 0). { intros Z. pose proof (uu_sum la Pl) as H. rewrite Z, Cmod_0 in H. lra. }
    unfold ww. replace ((u la - RtoC la) / k)%C with (k / (u la + RtoC la))%C; [reflexivity|].
    transitivity ((u la * u la - RtoC la * RtoC la) / (k * (u la + RtoC la)))%C; [|field; split; assumption].
    rewrite E. field. split; assumption.
  Qed.
  Lemma ww_small la : 0 < la -> Cmod (ww la) <= Cmod k * Cmod k / (la * la).
  Proof.
    intros Pl. rewrite (ww_alt la Pl). pose proof (uu_sum la Pl) as H. pose proof (Cmod_ge_0 k).
    assert (N : (u la + RtoC la)%C <> RtoC 0). { intros Z. rewrite Z, Cmod_0 in H. lra. }
    rewrite Cmod_mult, Cmod_div by exact N. unfold Rdiv. assert (I : / Cmod (u la + RtoC la)%C <= / la) by (apply Rinv_le_contravar; lra).
    assert (0 < / Cmod (u la + RtoC la)%C) by (apply Rinv_0_lt_compat; lra). replace (/ (la * la)) with (/ la * / la) by (field; lra).
    assert (Cmod k * / Cmod (u la + RtoC la)%C <= Cmod k * / la) by (apply Rmult_le_compat_l; lra).
    replace (Cmod k * Cmod k * (/ la * / la)) with (Cmod k * / la * (Cmod k * / la)) by ring. apply Rmult_le_compat; try assumption; apply Rmult_le_pos; lra.
  Qed.
  Lemma ff_bound la : 0 < la -> Cmod (ff la) <= 1.
  Proof.
    intros Pl. unfold ff. rewrite !Cmod_mult, Cmod_inv, Cmod_mult, Cmod_R, Rabs_right by (try (apply Cmult_neq_0; exact kn); lra).
    pose proof (ww_small la Pl) as W. pose proof (proj1 (Cmod_gt_0 k) kn) as Kp. set (q := Cmod k) in *.
    assert (0 < / (q * q)) by (apply Rinv_0_lt_compat; nra).
    apply Rle_trans with (q * q / (la * la) * (la * la) * / (q * q)).
    - apply Rmult_le_compat_r; [lra|]. apply Rmult_le_compat_r; [nra|exact W].
    - right. field. split; lra.
  Qed.
  Lemma fj_inf : clim inf (fun la => ff la * RtoC (bessel0 (la * r)))%C (RtoC 0).
  Proof.
    assert (Sr : 0 < sqrt r) by now apply sqrt_lt_R0. pose proof bC_pos.
    apply (clim_inf _ _ (bC / sqrt r) (/ r)); [apply Rdiv_le_0_compat; lra|]. intros la Pl La.
    replace (ff la * RtoC (bessel0 (la * r)) - RtoC 0)%C with (ff la * RtoC (bessel0 (la * r)))%C by ring. rewrite Cmod_mult, Cmod_R.
    assert (X1 : 1 <= la * r). { apply (Rmult_lt_compat_r r) in La; [|exact P]. rewrite Rinv_l in La by lra. lra. }
    pose proof (proj1 (J_decay (la * r) X1)) as J. rewrite sqrt_mult in J by lra. assert (0 < sqrt la) by now apply sqrt_lt_R0.
    replace (bC / sqrt r / sqrt la) with (1 * (bC / (sqrt la * sqrt r))) by (field; split; lra). apply Rmult_le_compat; [apply Cmod_ge_0|apply Rabs_pos|now apply ff_bound|exact J].
  Qed.
  Lemma fj_zero : clim (at_right 0) (fun la => ff la * RtoC (bessel0 (la * r)))%C (RtoC 0).
  Proof.
    assert (D : is_cderive (fun la => ff la * RtoC (bessel0 (la * r)))%C 0 ((ww 0 - ww 0 * ww 0) * / u 0 * RtoC (bessel0 (0 * r)) + ff 0 * RtoC (r * - bessel1 (0 * r)))%C).
    { apply (CD_mult ff (fun la => RtoC (bessel0 (la * r)))); [apply CD_ff|]. apply (CD_real (fun la => bessel0 (la * r))), (D_comp bessel0 (fun x => x * r)); [apply D_bessel0|]. eapply is_derive_eq; [der|ring]. }
    pose proof (CD_clim0 _ _ D) as H. cbv beta in H. replace (ff 0 * RtoC (bessel0 (0 * r)))%C with (RtoC 0) in H; [exact H|]. unfold ff. ring.
  Qed.
  Lemma radial_parts I1 I2 :
    is_cint (fun la => RtoC (bessel0 (la * r)) * (ww la * / u la))%C I1 -> is_cint (fun la => RtoC (bessel0 (la * r)) * (ww la * ww la * / u la))%C I2 ->
    is_cint (fun la => refl k la * RtoC (la ^ 2) * RtoC (bessel1 (la * r)))%C (- (k * k / RtoC r * (I1 - I2)))%C.
  Proof.
    intros A B. pose proof kn as Kn. assert (M1 : RtoC (-1) = (- RtoC 1)%C) by (now rewrite <- RtoC_opp). pose proof (rn r P) as Rn.
    assert (F : is_cint (fun la => (ww la - ww la * ww la) * / u la * RtoC (bessel0 (la * r)) + ff la * RtoC (r * - bessel1 (la * r)))%C (RtoC 0 - RtoC 0)%C).
    { assert (DJ : forall t, is_cderive (fun la => RtoC (bessel0 (la * r))) t (RtoC (r * - bessel1 (t * r)))).
      { intros t. apply (CD_real (fun la => bessel0 (la * r))), (D_comp bessel0 (fun x => x * r)); [apply D_bessel0|]. eapply is_derive_eq; [der|ring]. }
      apply (cint_FTC (fun la => ff la * RtoC (bessel0 (la * r)))%C); [| |exact fj_zero|exact fj_inf].
      - intros t T. apply (CD_mult ff (fun la => RtoC (bessel0 (la * r)))); [apply CD_ff|apply DJ].
      - intros t T. eexists. apply CD_plus.
        + apply (CD_mult (fun la => (ww la - ww la * ww la) * / u la)%C (fun la => RtoC (bessel0 (la * r)))); [|apply DJ].
          apply CD_mult; [|apply CD_inv; [apply CD_uu, K|apply uu_nz, K]]. apply CD_minus; [apply CD_ww|apply (CD_mult ww ww); apply CD_ww].
        + apply (CD_mult ff (fun la => RtoC (r * - bessel1 (la * r)))); [apply CD_ff|].
          apply (CD_real (fun la => r * - bessel1 (la * r))). apply D_scal, D_opp. apply (D_ext (fun x => bessel1 (r * x))); [intros x; now rewrite Rmult_comm|]. apply D_J1l; lra. }
    pose proof (cint_plus _ _ _ _ (cint_scal (- (k * k / RtoC r))%C _ _ (cint_plus _ _ _ _ A (cint_scal (RtoC (-1)) _ _ B))) (cint_scal (k * k / RtoC r)%C _ _ F)) as G.
    replace (- (k * k / RtoC r * (I1 - I2)))%C with (- (k * k / RtoC r) * (I1 + RtoC (-1) * I2) + k * k / RtoC r * (RtoC 0 - RtoC 0))%C by (rewrite M1; field; assumption).
    eapply cint_ext; [|exact G]. intros la Pl. cbv beta. rewrite M1. replace (refl k la) with (- ww la)%C by (rewrite ww_refl; ring).
    rewrite RtoC_mult, RtoC_opp. replace (RtoC (la ^ 2)) with (RtoC la * RtoC la)%C by (rewrite <- RtoC_mult; f_equal; ring). unfold ff. pose proof (uu_nz k K la) as N. field. repeat split; assumption.
  Qed.
  Lemma uu_scale c la : 0 < c -> uu (RtoC c * k)%C (c * la) = (RtoC c * u la)%C.
  Proof.
    intros Pc. unfold uu at 1. symmetry. apply csqrt_unique.
    - pose proof (uu_re k K la). replace (Re (RtoC c * u la)%C) with (c * Re (u la)) by (cbn; ring). nra.
    - transitivity (RtoC c * RtoC c * (u la * u la))%C; [ring|]. rewrite uu_sq. rewrite RtoC_mult. replace (RtoC ((c * la) ^ 2)) with (RtoC c * RtoC la * (RtoC c * RtoC la))%C by (rewrite <- !RtoC_mult; f_equal; ring). ring.
  Qed.
End Radial.
Lemma cpow2 z : cpow z (2 * 1) = (z * z)%C. Proof. cbn. ring. Qed.
Lemma cpow4 z : cpow z (2 * 2) = (z * z * (z * z))%C. Proof. cbn. ring. Qed.
