(** Underflow of K_n and the dipole on a half-space (C140). *)
From Coq Require Import Reals Lra Psatz List.
From Coquelicot Require Import Coquelicot.
From Verif Require Import Vec3 Calculus Deriv Cplx CplxTaylor SpecFun Numpy Model_FDEM Spec_FDEM Spec_Fourier Spec_HalfSpace Proof_Fourier Proof_FDEM Proof_HalfSpace Proof_HalfSpace2 Proof_HalfSpace3 Proof_HalfSpace4 Spec_McNeill Proof_McNeill Proof_McNeill2 Spec_Mirror Proof_Mirror Proof_Mirror2 Proof_Mirror3 Proof_Mirror4 Model_Special Spec_Special.
Open Scope R_scope.

(** ** the size of K_n *)
Section Macdonald.
  Variables (n : nat) (z : C).
  Hypotheses (N : (n <= 2)%nat) (Z : 4 <= Re z).
  Definition mac (t : R) : C := (cexp (- (z * RtoC (cosh t))) * RtoC (cosh (INR n * t)))%C.
  Lemma cosh_ge t : 0 <= t -> 3 * t <= 4 * cosh t /\ 1 <= cosh t.
  Proof.
    intros T. unfold cosh. pose proof (exp_pos (- t)) as E. pose proof (exp_ge_taylor t 2 T) as H. unfold sum_f_R0 in H. cbn in H.
    assert (M : exp t * exp (- t) = 1) by (rewrite <- exp_plus, Rplus_opp_r; apply exp_0). split; [nra|].
    pose proof (exp_pos t). nra.
  Qed.
  Lemma cosh_le t : 0 <= t -> 0 <= cosh (INR n * t) <= exp (2 * t).
  Proof.
    intros T. assert (I : 0 <= INR n <= 2) by (split; [apply pos_INR|replace 2 with (INR 2) by (cbn; ring); now apply le_INR]). unfold cosh.
    pose proof (exp_pos (INR n * t)). pose proof (exp_pos (- (INR n * t))). assert (M : forall a b, a <= b -> exp a <= exp b) by (intros a b [L| ->]; [left; now apply exp_increasing|lra]).
    pose proof (M (INR n * t) (2 * t) ltac:(nra)). pose proof (M (- (INR n * t)) (2 * t) ltac:(nra)). lra.
  Qed.
  Lemma mac_bound t : 0 <= t -> Cmod (mac t) <= exp (- (Re z - 4)) * exp (- t).
  Proof.
    intros T. unfold mac. rewrite Cmod_mult, Cmod_cexp, Cmod_R. destruct (cosh_le t T) as (C0 & C1). rewrite Rabs_pos_eq by exact C0. destruct (cosh_ge t T) as (G1 & G2).
    replace (Re (- (z * RtoC (cosh t)))%C) with (- (Re z * cosh t)) by (cbn; ring).
    assert (M : forall a b, a <= b -> exp a <= exp b) by (intros a b [Q| ->]; [left; now apply exp_increasing|lra]).
    rewrite <- exp_plus. apply Rle_trans with (exp (- (Re z * cosh t)) * exp (2 * t)); [apply Rmult_le_compat_l; [left; apply exp_pos|exact C1]|].
    rewrite <- exp_plus. apply M. nra.
  Qed.
  Lemma CD_mac t : exists d, is_cderive mac t d.
  Proof.
    assert (Dc : forall a x, is_derive (fun x => cosh (a * x)) x (a * sinh (a * x))).
    { intros a x. unfold cosh, sinh. auto_derive; [exact I|]. field. }
    unfold mac. eexists. apply CD_mult; [|apply (CD_real (fun t => cosh (INR n * t))), Dc].
    apply (CD_exp (fun t => - (z * RtoC (cosh t)))%C). apply CD_opp, CD_mult; [apply CD_const|]. apply (CD_real cosh).
    apply (is_derive_ext (fun x => cosh (1 * x))); [intros x; f_equal; ring|]. apply Dc.
  Qed.
  Lemma mac_int : exists K, is_macdonald n z K.
  Proof.
    apply (cdecaying_int mac (exp (- (Re z - 4)) * 2)); [exact CD_mac|]. intros t T. eapply Rle_trans; [apply mac_bound; lra|].
    replace (exp (- (Re z - 4)) * 2 / (t * t)) with (exp (- (Re z - 4)) * (2 / (t * t))) by (unfold Rdiv; ring). apply Rmult_le_compat_l; [left; apply exp_pos|].
    rewrite exp_Ropp. pose proof (exp_ge_taylor t 2 ltac:(lra)) as H. unfold sum_f_R0 in H. cbn in H. replace (2 / (t * t)) with (/ (t * t / 2)) by (field; lra). apply Rinv_le_contravar; nra.
  Qed.
  Lemma exp_int : is_RInt_gen (fun t => exp (- (Re z - 4)) * exp (- t)) (at_right 0) inf (0 - - exp (- (Re z - 4))).
  Proof.
    set (E := exp (- (Re z - 4))). assert (E0 : 0 < E) by apply exp_pos.
    assert (D : forall t, is_derive (fun t => - (E * exp (- t))) t (E * exp (- t))) by (intros t; auto_derive; [exact I|ring]).
    apply (int_FTC (fun t => - (E * exp (- t)))).
    - intros t _. apply D.
    - intros t _. apply continuity_pt_filterlim. eapply derive_continuity. instantiate (1 := - (E * exp (- t))). auto_derive; [exact I|ring].
    - pose proof (derive_continuity _ _ _ (D 0)) as H. apply continuity_pt_filterlim in H. replace (- (E * exp (- 0))) with (- E) in H by (rewrite Ropp_0, exp_0; ring).
      apply (filterlim_filter_le_1 (F := locally 0)); [intros Q [e He]; exists e; intros t Ht _; now apply He|]. exact H.
    - destruct (clim_inf (fun t => RtoC (- (E * exp (- t)))) (RtoC 0) (E * 2) 1) as [H _]; [lra| |exact H].
      intros t T1 T2. rewrite <- RtoC_minus, Cmod_R, Rminus_0_r, Rabs_Ropp, Rabs_pos_eq by (pose proof (exp_pos (- t)); nra).
      replace (E * 2 / sqrt t) with (E * (2 / sqrt t)) by (unfold Rdiv; ring). apply Rmult_le_compat_l; [lra|]. rewrite exp_Ropp. pose proof (exp_ge_taylor t 2 ltac:(lra)) as G. unfold sum_f_R0 in G. cbn in G.
      assert (S0 : 0 < sqrt t) by (apply sqrt_lt_R0; lra). assert (S2 : sqrt t * sqrt t = t) by (apply sqrt_sqrt; lra). replace (2 / sqrt t) with (/ (sqrt t / 2)) by (field; lra). apply Rinv_le_contravar; nra.
  Qed.
  Lemma macdonald_small K : is_macdonald n z K -> Cmod K <= exp (- (Re z - 4)).
  Proof.
    intros H. replace (exp (- (Re z - 4))) with (0 - - exp (- (Re z - 4))) by ring. eapply cint_bound; [exact H|exact exp_int|]. intros t T. apply mac_bound. lra.
  Qed.
End Macdonald.
Lemma exp_tiny y : 896 <= y -> exp (- y) < / 2 ^ 1075.
Proof.
  intros Y. assert (M : forall a b, a <= b -> exp a <= exp b) by (intros a b [Q| ->]; [left; now apply exp_increasing|lra]).
  apply Rle_lt_trans with (exp (- (896))); [apply M; lra|]. rewrite exp_Ropp. apply Rinv_lt_contravar; [apply Rmult_lt_0_compat; [apply pow_lt; lra|apply exp_pos]|].
  assert (E1 : 5 / 2 <= exp 1) by (pose proof (exp_ge_taylor 1 2 ltac:(lra)) as H; unfold sum_f_R0 in H; cbn in H; lra).
  assert (E4 : 2 ^ 5 <= exp 4). { replace 4 with (1 + 1 + 1 + 1) by ring. rewrite !exp_plus. apply Rle_trans with (5 / 2 * (5 / 2) * (5 / 2) * (5 / 2)); [cbn; lra|]. repeat apply Rmult_le_compat; lra. }
  assert (P : forall k : nat, exp 4 ^ k = exp (4 * INR k)).
  { induction k as [|k IH]; [cbn; rewrite Rmult_0_r; now rewrite exp_0|]. rewrite S_INR, Rmult_plus_distr_l, exp_plus, <- IH, Rmult_1_r. cbn. ring. }
  apply Rlt_le_trans with (2 ^ 1120); [apply Rlt_pow; [lra|repeat constructor]|]. replace 896 with (4 * INR 224) by (rewrite INR_IZR_INZ; cbn; lra). rewrite <- P. replace 1120%nat with (5 * 224)%nat by reflexivity. rewrite pow_mult. apply pow_incr. split; [apply pow_le; lra|exact E4].
Qed.

(** ** zeros and nans *)
Section Lost.
  Variable L : lib.
  Hypothesis R0 : rd L 0 = Fin 0.
  Lemma lost_add a b : lost a -> lost b -> lost (fadd L a b).
  Proof. intros [->| ->] [->| ->]; cbn; try (right; reflexivity). rewrite Rplus_0_r, R0. now left. Qed.
  Lemma lost_neg a : lost a -> lost (fneg a).
  Proof. intros [->| ->]; cbn; [left; now rewrite Ropp_0|now right]. Qed.
  Lemma lost_sub a b : lost a -> lost b -> lost (fsub L a b).
  Proof. intros A B. apply lost_add; [exact A|now apply lost_neg]. Qed.
  Lemma lost_mul_r a b : lost b -> lost (fmul L a b).
  Proof. intros [->| ->]; destruct a; cbn; try (right; reflexivity). - rewrite Rmult_0_r, R0. now left. - destruct (Req_EM_T 0 0); [now right|lra]. Qed.
  Lemma lost_mul_l a b : lost a -> lost (fmul L a b).
  Proof. intros [->| ->]; destruct b; cbn; try (right; reflexivity). - rewrite Rmult_0_l, R0. now left. - destruct (Req_EM_T 0 0); [now right|lra]. Qed.
  Lemma lost_div a b : lost a -> lost (fdiv L a b).
  Proof.
    intros [->| ->]; destruct b; cbn; try (right; reflexivity); [|now left]. destruct (Req_EM_T x 0); [destruct (Req_EM_T 0 0); [now right|lra]|]. unfold Rdiv. rewrite Rmult_0_l, R0. now left.
  Qed.
  Lemma clost_add a b : clost a -> clost b -> clost (cadd L a b).
  Proof. intros [A A'] [B B']. split; now apply lost_add. Qed.
  Lemma clost_sub a b : clost a -> clost b -> clost (csub L a b).
  Proof. intros [A A'] [B B']. split; now apply lost_sub. Qed.
  Lemma clost_mul a b : clost b -> clost (cmul L a b).
  Proof. intros [B B']. split; cbn; [apply lost_sub|apply lost_add]; now apply lost_mul_r. Qed.
  Lemma clost_0 : clost (cn 0). Proof. split; now left. Qed.
  Lemma clost_re a : lost a -> clost (cre a). Proof. intros A. split; [exact A|now left]. Qed.
  Lemma lost_0 : lost (Fin 0). Proof. now left. Qed.
  Lemma horizontal_lost s secondary xy : vx (mh_orient s) = 0 -> vy (mh_orient s) = 0 ->
    clost (l_kv L 1 (s_alpha L s xy)) -> clost (l_kv L 2 (s_alpha L s xy)) ->
    clost (fst (fst (s_H L s secondary xy))) /\ clost (snd (fst (s_H L s secondary xy))).
  Proof.
    intros X Y K1 K2. unfold s_H. cbv zeta. rewrite X, Y.
    assert (T : Reqb 0 0 = true) by (unfold Reqb; destruct (Req_EM_T 0 0); [reflexivity|lra]). rewrite T.
    assert (Kl : clost (csub L (cmul L (l_iv L 1 (s_alpha L s xy)) (l_kv L 1 (s_alpha L s xy))) (cmul L (l_iv L 2 (s_alpha L s xy)) (l_kv L 2 (s_alpha L s xy))))) by (apply clost_sub; now apply clost_mul).
    destruct secondary, (Reqb (vz (mh_orient s)) 0); cbn [fst snd]; split; apply clost_mul;
      repeat first [exact clost_0 | apply clost_sub | apply clost_add | apply clost_mul; apply clost_mul; exact Kl | apply clost_re, lost_sub; (apply lost_div || idtac)];
      try exact lost_0; try (apply lost_mul_r, lost_add; apply lost_mul_l, lost_0); try (apply lost_div, lost_0).
  Qed.
  Lemma vertical_lost s secondary xy : vz (mh_orient s) = 0 ->
    clost (l_kv L 1 (s_alpha L s xy)) -> clost (l_kv L 2 (s_alpha L s xy)) -> clost (snd (s_H L s secondary xy)).
  Proof.
    intros Z K1 K2. unfold s_H. cbv zeta. rewrite Z.
    assert (T : Reqb 0 0 = true) by (unfold Reqb; destruct (Req_EM_T 0 0); [reflexivity|lra]). rewrite T.
    assert (Kl : clost (csub L (cmul L (l_iv L 1 (s_alpha L s xy)) (l_kv L 1 (s_alpha L s xy))) (cmul L (l_iv L 2 (s_alpha L s xy)) (l_kv L 2 (s_alpha L s xy))))) by (apply clost_sub; now apply clost_mul).
    destruct secondary, (Reqb (vx (mh_orient s)) 0), (Reqb (vy (mh_orient s)) 0); cbn [fst snd]; apply clost_mul;
      repeat first [exact clost_0 | apply clost_sub | apply clost_mul; exact Kl | apply clost_re, lost_div, lost_neg, lost_0].
  Qed.
End Lost.

Section Finding.
  Variables (L : lib) (iv kv : nat -> C -> C) (mu_0 : R) (s : mhalf) (c n r : R).
  Hypotheses (B : bessel_products iv kv) (M : 0 < mu_0) (F : 0 < fd_freq (mh_med s)) (S : 0 < fd_sigma (mh_med s)) (U : c * c + n * n = 1) (P : 0 < r) (Q : is_True (fd_qs (mh_med s)) = true).
  Let x := skin_depths (fd_freq (mh_med s)) mu_0 (fd_sigma (mh_med s)) r.
  Let p := at_distance (mh_loc s) c n r.
  Let o := mh_orient s.
  Let m := mh_moment s / (4 * PI * r ^ 3).
  Hypotheses (R0 : rd L 0 = Fin 0) (KV : kv_underflows (l_kv L)) (X : 2000 <= x).
  Hypothesis (Ac : exists a, s_alpha L s p = (Fin (Re a), Fin (Im a)) /\ Cmod (a - Ci * mh_k mu_0 s * RtoC (r / 2))%C <= / 20 * Cmod (Ci * mh_k mu_0 s * RtoC (r / 2))%C).
  Let Xp : 0 < x := x_pos mu_0 s r M F S P.
  Lemma kv_lost j : (j <= 2)%nat -> clost (l_kv L j (s_alpha L s p)).
  Proof.
    intros Hm. destruct Ac as (a & A & D). assert (G : 900 <= Re a).
    { pose proof (half mu_0 s r M F S P Q) as E. fold x in E. rewrite E in D.
      assert (C1 : Cmod (x / 2, x / 2) <= 17 / 24 * x). { pose proof (Cmod_sqr (x / 2, x / 2)) as C2. pose proof (Cmod_ge_0 (x / 2, x / 2)). cbn in C2. apply Rnot_lt_le. intros Lt. nra. }
      set (q := ((x / 2)%R, (x / 2)%R) : C) in *. pose proof (proj1 (parts_le_Cmod (a - q)%C)) as R1. replace (Re (a - q)%C) with (Re a - x / 2) in R1 by reflexivity. apply Rabs_le_between in R1. lra. }
    destruct (mac_int j a Hm ltac:(lra)) as [K HK]. pose proof (macdonald_small j a Hm ltac:(lra) K HK) as T. pose proof (exp_tiny (Re a - 4) ltac:(lra)) as T'.
    rewrite A. apply (KV j a K HK); (eapply Rle_lt_trans; [|eapply Rle_lt_trans; [exact T|exact T']]); apply parts_le_Cmod.
  Qed.
  (** what is left of a 3 (1 - i) / x part up to 264 / x^2 *)
  Lemma left_over (h : C) (q : R) : Cmod (h - RtoC q * (RtoC (3 / x) * (RtoC 1 - Ci)))%C <= Rabs q * (264 / x ^ 2) -> 4 / x * Rabs q <= Cmod h.
  Proof.
    intros H. pose proof Xp as Xq. rewrite <- Cmod_opp in H. replace (- (h - RtoC q * (RtoC (3 / x) * (RtoC 1 - Ci))))%C with (RtoC q * (RtoC (3 / x) * (RtoC 1 - Ci)) - h)%C in H by ring. apply near in H.
    rewrite !Cmod_mult, !Cmod_R, (Rabs_pos_eq (3 / x)) in H by (apply Rdiv_le_0_compat; lra).
    assert (C2 : Cmod (RtoC 1 - Ci)%C * Cmod (RtoC 1 - Ci)%C = 2) by (rewrite Cmod_sqr; cbn; ring). pose proof (Cmod_ge_0 (RtoC 1 - Ci)%C) as Cp. assert (C1 : 141 / 100 <= Cmod (RtoC 1 - Ci)%C) by (apply Rnot_lt_le; intros Lt; nra).
    pose proof (Rabs_pos q) as Am. pose proof (Rinv_0_lt_compat x Xq) as Ip. assert (I1 : / x <= / 2000) by (apply Rinv_le_contravar; lra).
    replace (264 / x ^ 2) with (264 * / x * / x) in H by (field; lra). unfold Rdiv in *.
    assert (264 * / x * / x <= / x * (132 / 1000)) by nra. assert (3 * / x * (141 / 100) <= 3 * / x * Cmod (RtoC 1 - Ci)%C) by nra.
    assert (Rabs q * (3 * / x * (141 / 100)) <= Rabs q * (3 * / x * Cmod (RtoC 1 - Ci)%C)) by (apply Rmult_le_compat_l; assumption). assert (Rabs q * (264 * / x * / x) <= Rabs q * (/ x * (132 / 1000))) by (apply Rmult_le_compat_l; assumption). nra.
  Qed.
  Lemma vertical_source secondary : vx o = 0 -> vy o = 0 ->
    clost (fst (fst (s_H L s secondary p))) /\ clost (snd (fst (s_H L s secondary p))) /\
    4 / x * Rabs (m * vz o) <= Cmod (radial (mh_H iv kv mu_0 s secondary p) c n).
  Proof.
    intros Ox Oy. assert (HL := horizontal_lost L R0 s secondary p Ox Oy (kv_lost 1 ltac:(repeat constructor)) (kv_lost 2 ltac:(repeat constructor))). split; [apply HL|split; [apply HL|]].
    assert (Sec : radial (mh_H iv kv mu_0 s secondary p) c n = radial (mh_H iv kv mu_0 s false p) c n).
    { destruct secondary; [|reflexivity]. pose proof (primary_radial iv kv mu_0 s c n r U P) as E. fold p o in E. rewrite Ox, Oy in E.
      replace (2 * (mh_moment s / (4 * PI * r ^ 3) * (0 * c + 0 * n))) with 0 in E by ring. symmetry. transitivity (radial (mh_H iv kv mu_0 s true p) c n + (radial (mh_H iv kv mu_0 s false p) c n - radial (mh_H iv kv mu_0 s true p) c n))%C; [ring|]. rewrite E. ring. }
    rewrite Sec. pose proof (radial_tot iv kv mu_0 s c n r B M F S U P Q) as H. fold x p o in H. rewrite Ox, Oy in H. fold m in H.
    replace (m * (0 * c + 0 * n)) with 0 in H by ring. rewrite Rabs_R0, Rmult_0_l, Rplus_0_l in H.
    rewrite <- Rabs_Ropp. apply left_over. rewrite Rabs_Ropp. match goal with |- Cmod ?a <= _ => match type of H with Cmod ?b <= _ => replace a with b; [exact H|] end end. rewrite RtoC_opp. ring.
  Qed.
  Lemma horizontal_source secondary : vz o = 0 ->
    clost (snd (s_H L s secondary p)) /\ 4 / x * Rabs (m * (vx o * c + vy o * n)) <= Cmod (cvz (mh_H iv kv mu_0 s secondary p)).
  Proof.
    intros Oz. split; [exact (vertical_lost L R0 s secondary p Oz (kv_lost 1 ltac:(repeat constructor)) (kv_lost 2 ltac:(repeat constructor)))|].
    assert (Sec : cvz (mh_H iv kv mu_0 s secondary p) = cvz (mh_H iv kv mu_0 s false p)).
    { destruct secondary; [|reflexivity]. pose proof (proj1 (primary_of iv kv mu_0 s c n r U P)) as E. fold p o in E. rewrite Oz in E. rewrite Rmult_0_r, Ropp_0 in E.
      symmetry. transitivity (cvz (mh_H iv kv mu_0 s true p) + (cvz (mh_H iv kv mu_0 s false p) - cvz (mh_H iv kv mu_0 s true p)))%C; [ring|]. rewrite E. ring. }
    rewrite Sec. pose proof (vertical_tot iv kv mu_0 s c n r B M F S U P Q) as H. fold x p o in H. rewrite Oz in H. fold m in H.
    rewrite Rmult_0_r, Rabs_R0, Rmult_0_l, Rplus_0_l in H. apply left_over. match goal with |- Cmod ?a <= _ => match type of H with Cmod ?b <= _ => replace a with b; [exact H|] end end. ring.
  Qed.
End Finding.
