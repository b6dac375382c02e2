(** The integrals of C117 exist, and the remaining components. *)
From Coq Require Import Reals Lra Psatz List.
From Coquelicot Require Import Coquelicot.
From Verif Require Import Vec3 Calculus Deriv Integral Cplx CplxTaylor SpecFun Numpy Model_FDEM Model_RTE Spec_FDEM Spec_Fourier Spec_Hankel Spec_HalfSpace
  Proof_Fourier Proof_Hankel Proof_RTE6 Proof_RTE9 Proof_FDEM Proof_FDEM5 Proof_FDEM6 Proof_Bessel Proof_Bessel2 Proof_HalfSpace Proof_HalfSpace2 Proof_HalfSpace3.
Import ListNotations.
Open Scope R_scope.

Lemma decaying_int (f : R -> R) K : (forall x, exists d, is_derive f x d) -> (forall x, 1 <= x -> Rabs (f x) <= K / (x * x)) -> ex_RInt_gen f (at_right 0) inf.
Proof.
  intros D B.
  assert (Cf : forall x, continuity_pt f x) by (intros x; destruct (D x) as [d Hd]; exact (derive_continuity _ _ _ Hd)).
  assert (Cc : forall t, continuous f t) by (intros t; apply continuity_pt_filterlim, Cf).
  assert (K0 : 0 <= K). { pose proof (B 1 ltac:(lra)) as H. pose proof (Rabs_pos (f 1)). unfold Rdiv in H. rewrite Rmult_1_r, Rinv_1 in H. lra. }
  set (G := fun x => RInt f 0 x).
  assert (DG : forall x, is_derive G x (f x)).
  { intros x. apply (is_derive_RInt f G 0 x); [|apply Cc]. exists (mkposreal 1 Rlt_0_1). intros y _. apply (RInt_correct (V:=R_CompleteNormedModule)), ex_RInt_continuous. intros t _. apply Cc. }
  assert (T : forall x y, 1 <= x -> x <= y -> Rabs (G y - G x) <= K / x).
  { intros x y X Y. assert (Ky : 0 <= K / y) by (apply Rdiv_le_0_compat; lra).
    assert (Mo : forall s, s = 1 \/ s = -1 -> s * (G y - G x) + (K / y - K / x) <= 0).
    { intros s Hs. destruct (Req_dec x y) as [->|N]; [lra|].
      destruct (MVT_gen (fun t => s * G t + K / t) x y (fun t => s * f t + - (K / (t * t)))) as [c [Hc Ec]].
      - intros t Ht. rewrite Rmin_left, Rmax_right in Ht by lra. apply D_plus; [apply D_scal, DG|]. eapply is_derive_eq; [apply D_div; [apply D_const|apply D_id|lra]|]. cbv beta. field. lra.
      - intros t Ht. rewrite Rmin_left, Rmax_right in Ht by lra. apply (continuity_pt_plus (fun t => s * G t) (fun t => K / t)).
        + apply (continuity_pt_scal G). exact (derive_continuity _ _ _ (DG t)).
        + eapply derive_continuity. apply D_div; [apply D_const|apply D_id|lra].
      - rewrite Rmin_left, Rmax_right in Hc by lra. pose proof (B c ltac:(lra)) as Bc. apply Rabs_le_between in Bc.
        assert (s * f c + - (K / (c * c)) <= 0) by (destruct Hs; subst s; lra). nra. }
    pose proof (Mo 1 (or_introl eq_refl)). pose proof (Mo (-1) (or_intror eq_refl)). apply Rabs_le. lra. }
  assert (L : exists l, filterlim G inf (locally l)).
  { apply (proj1 (filterlim_locally_cauchy (U := R_CompleteSpace) (F := inf) G)). intros e. exists (fun x => Rmax 1 (2 * (K / e) + 1) <= x). split.
    - exists (Rmax 1 (2 * (K / e) + 1)). intros x Hx. lra.
    - pose proof (cond_pos e) as Pe. assert (Q : 0 <= K / e) by (apply Rdiv_le_0_compat; lra).
      assert (W : forall x y, Rmax 1 (2 * (K / e) + 1) <= x -> x <= y -> Rabs (G y - G x) < e).
      { intros x y Hx Hy. pose proof (Rmax_l 1 (2 * (K / e) + 1)). pose proof (Rmax_r 1 (2 * (K / e) + 1)).
        eapply Rle_lt_trans; [apply T; lra|]. apply (proj2 (Rlt_div_l _ _ x ltac:(lra))). apply Rle_lt_trans with (K / e * e); [right; field; lra|]. rewrite (Rmult_comm e). apply Rmult_lt_compat_r; lra. }
      intros x y Hx Hy. change (Rabs (G y - G x) < e). destruct (Rle_lt_dec x y) as [H|H]; [now apply W|]. rewrite Rabs_minus_sym. apply W; lra. }
  destruct L as [l L]. exists (l - 0). apply (int_FTC G).
  - intros t _. apply DG.
  - intros t _. apply Cc.
  - apply (filterlim_filter_le_1 (F := locally 0)); [intros Q [e He]; exists e; intros y Hy _; now apply He|].
    pose proof (derive_continuity _ _ _ (DG 0)) as H. apply continuity_pt_filterlim in H. replace (G 0) with 0 in H by (unfold G; rewrite RInt_point; reflexivity). exact H.
  - exact L.
Qed.
Lemma cdecaying_int (F : R -> C) K : (forall x, exists d, is_cderive F x d) -> (forall x, 1 <= x -> Cmod (F x) <= K / (x * x)) -> exists L, is_cint F L.
Proof.
  intros D B.
  destruct (decaying_int (fun x => Re (F x)) K) as [a A].
  - intros x. destruct (D x) as [d [H _]]. eexists. exact H.
  - intros x X. eapply Rle_trans; [apply parts_le_Cmod|now apply B].
  - destruct (decaying_int (fun x => Im (F x)) K) as [b Bb].
    + intros x. destruct (D x) as [d [_ H]]. eexists. exact H.
    + intros x X. eapply Rle_trans; [apply parts_le_Cmod|now apply B].
    + exists (a, b). split; assumption.
Qed.
Definition product_integrand (n : nat) (z : C) (s : R) : C :=
  (let u := csqrt (RtoC (s ^ 2) + z * z) in RtoC (bessel0 (2 * s)) * (cpow ((u - RtoC s) / z) (2 * n) / u))%C.
Lemma product_ex n z : n = 1%nat \/ n = 2%nat -> 0 < Re z -> exists L, is_cint (product_integrand n z) L.
Proof.
  intros Hn Z. pose proof (k_nz z Z) as Zn. set (q := Cmod z). assert (Q : 0 < q) by exact (proj1 (Cmod_gt_0 z) Zn).
  set (pw := fun s => (match n with 1%nat => ww z s | _ => ww z s * ww z s end)%C).
  assert (E : forall s, product_integrand n z s = (RtoC (bessel0 (2 * s)) * (pw s * / uu z s))%C).
  { intros s. unfold product_integrand, pw. cbv zeta. fold (uu z s). destruct Hn; subst n; [rewrite cpow2|rewrite cpow4]; reflexivity. }
  assert (U : forall s, Re z <= Cmod (uu z s)).
  { intros s. pose proof (uu_sq z s) as S2. apply (f_equal Cmod) in S2. rewrite Cmod_mult in S2.
    pose proof (den_big z Z s (PI / 2)) as Db. cbv zeta beta in Db. rewrite sin_PI2, Rmult_1_r in Db. rewrite <- S2 in Db. pose proof (Cmod_ge_0 (uu z s)). nra. }
  assert (Pw : forall s, 1 <= s -> Cmod (pw s) <= (q * q + q * q * (q * q)) / (s * s)).
  { intros s S1. pose proof (ww_small z Z s ltac:(lra)) as W. fold q in W. pose proof (Cmod_ge_0 (ww z s)). assert (Is : 0 < / (s * s)) by (apply Rinv_0_lt_compat; nra).
    assert (Is1 : / (s * s) <= 1) by (rewrite <- Rinv_1; apply Rinv_le_contravar; nra). unfold Rdiv in *. assert (0 < q * q) by nra. set (i := / (s * s)) in *. clearbody i.
    assert (q * q * i <= q * q) by nra. assert (0 < q * q * (q * q) * i) by (apply Rmult_lt_0_compat; nra). assert (0 < q * q * i) by nra.
    unfold pw. destruct Hn; subst n; [|rewrite Cmod_mult]; nra. }
  destruct (cdecaying_int (product_integrand n z) ((q * q + q * q * (q * q)) * / Re z)) as [L HL].
  - intros s. assert (Dp : exists d, is_cderive pw s d).
    { unfold pw. destruct Hn; subst n; eexists; [apply (CD_ww z Z)|]. apply (CD_mult (ww z) (ww z)); apply (CD_ww z Z). }
    destruct Dp as [d Dp]. eexists.
    assert (Dd : is_cderive (fun s => RtoC (bessel0 (2 * s)) * (pw s * / uu z s))%C s (RtoC (- (2 * bessel1 (2 * s))) * (pw s * / uu z s) + RtoC (bessel0 (2 * s)) * (d * / uu z s + pw s * (- (RtoC s * / uu z s) * (/ uu z s * / uu z s))))%C).
    { apply (CD_mult (fun s => RtoC (bessel0 (2 * s))) (fun s => pw s * / uu z s)%C); [apply (CD_real (fun s => bessel0 (2 * s))), D_J0l|].
      apply (CD_mult pw (fun s => / uu z s)%C); [exact Dp|]. eapply is_cderive_eq; [apply CD_inv; [apply CD_uu, Z|apply uu_nz, Z]|]. cbv beta. pose proof (uu_nz z Z s). field. assumption. }
    destruct Dd as [D1 D2]. split.
    + eapply D_ext; [|exact D1]. intros t. now rewrite E.
    + eapply D_ext; [|exact D2]. intros t. now rewrite E.
  - intros s S1. rewrite E, !Cmod_mult, Cmod_R, Cmod_inv by (apply uu_nz, Z). pose proof (J0_bound (2 * s)). pose proof (Pw s S1) as W. pose proof (U s) as Us.
    assert (I : / Cmod (uu z s) <= / Re z) by (apply Rinv_le_contravar; lra). assert (0 < / Cmod (uu z s)) by (apply Rinv_0_lt_compat; lra).
    pose proof (Cmod_ge_0 (pw s)). pose proof (Rabs_pos (bessel0 (2 * s))).
    replace ((q * q + q * q * (q * q)) * / Re z / (s * s)) with (1 * ((q * q + q * q * (q * q)) / (s * s) * / Re z)) by (unfold Rdiv; ring).
    apply Rmult_le_compat; [assumption|apply Rmult_le_pos; lra|assumption|]. apply Rmult_le_compat; lra.
  - exists L. exact HL.
Qed.
(** functions with the product formula: the product itself and 1 *)
Definition the_products (n : nat) (z : C) : C :=
  (RInt_gen (fun s => Re (product_integrand n z s)) (at_right 0) inf, RInt_gen (fun s => Im (product_integrand n z s)) (at_right 0) inf).
Lemma products_exist : bessel_products the_products (fun _ _ => RtoC 1).
Proof.
  intros n z Hn Z. destruct (product_ex n z Hn Z) as [L [A B]].
  replace (the_products n z * RtoC 1)%C with (the_products n z) by ring. split.
  - exact (RInt_gen_correct (V:=R_CompleteNormedModule) _ (ex_intro _ _ A)).
  - exact (RInt_gen_correct (V:=R_CompleteNormedModule) _ (ex_intro _ _ B)).
Qed.

Section More.
  Variables (iv kv : nat -> C -> C) (mu_0 : R) (md : fdem) (m : R) (loc : vec3).
  Hypotheses (M : 0 < mu_0) (F : 0 < fd_freq md) (S : 0 < fd_sigma md).
  Lemma beside_polar p : beside p loc -> exists c n r, 0 < r /\ c * c + n * n = 1 /\ vx p = vx loc + r * c /\ vy p = vy loc + r * n.
  Proof.
    intros B. set (x := vx p - vx loc). set (y := vy p - vy loc). assert (P : 0 < x * x + y * y). { assert (XY : x <> 0 \/ y <> 0) by (unfold x, y; destruct B; [left|right]; lra). clearbody x y. destruct XY; nra. }
    assert (Q : 0 < sqrt (x * x + y * y)) by now apply sqrt_lt_R0. assert (Q2 : sqrt (x * x + y * y) * sqrt (x * x + y * y) = x * x + y * y) by (apply sqrt_sqrt; lra).
    exists (x / sqrt (x * x + y * y)), (y / sqrt (x * x + y * y)), (sqrt (x * x + y * y)). split; [exact Q|]. split.
    - replace (x / sqrt (x * x + y * y) * (x / sqrt (x * x + y * y)) + y / sqrt (x * x + y * y) * (y / sqrt (x * x + y * y))) with ((x * x + y * y) / (sqrt (x * x + y * y) * sqrt (x * x + y * y))) by (field; lra). rewrite Q2. field. lra.
    - split; unfold x, y; field; unfold x, y in Q; lra.
  Qed.
  Lemma height_irrelevant s sec p p' : vx p = vx p' -> vy p = vy p' -> mh_H iv kv mu_0 s sec p = mh_H iv kv mu_0 s sec p'.
  Proof. intros X Y. unfold mh_H. now rewrite X, Y. Qed.
  Lemma trace_lemma p : beside p loc ->
    (cvx (mh_H iv kv mu_0 (MH md m (V3 1 0 0) loc) true p) + cvy (mh_H iv kv mu_0 (MH md m (V3 0 1 0) loc) true p))%C = cvz (mh_H iv kv mu_0 (MH md m (V3 0 0 1) loc) true p).
  Proof.
    intros B. destruct (beside_polar p B) as (c & n & r & P & U & X & Y).
    rewrite !(fun s => height_irrelevant s true p (at_distance loc c n r) X Y).
    destruct (parts_of iv kv mu_0 (MH md m (V3 1 0 0) loc) c n M F S U r P) as (_ & T1 & R1).
    destruct (parts_of iv kv mu_0 (MH md m (V3 0 1 0) loc) c n M F S U r P) as (_ & T2 & R2).
    destruct (parts_of iv kv mu_0 (MH md m (V3 0 0 1) loc) c n M F S U r P) as (Z3 & _ & _).
    change (mh_loc _) with loc in *. rewrite Z3. clear Z3.
    change (mh_k mu_0 (MH md m (V3 0 1 0) loc)) with (mh_k mu_0 (MH md m (V3 1 0 0) loc)) in *. change (mh_k mu_0 (MH md m (V3 0 0 1) loc)) with (mh_k mu_0 (MH md m (V3 1 0 0) loc)) in *.
    unfold transverse, radial in *. cbn [mh_moment mh_orient vx vy vz] in *.
    generalize dependent (mh_H iv kv mu_0 (MH md m (V3 1 0 0) loc) true (at_distance loc c n r)). generalize dependent (mh_H iv kv mu_0 (MH md m (V3 0 1 0) loc) true (at_distance loc c n r)).
    intros h2 T2 R2 h1 T1 R1.
    generalize dependent (tp (Ci * mh_k mu_0 (MH md m (V3 1 0 0) loc))%C r). generalize dependent (dtp (Ci * mh_k mu_0 (MH md m (V3 1 0 0) loc))%C r). intros d R1 R2 t T1 T2.
    assert (Uc : (RtoC c * RtoC c + RtoC n * RtoC n)%C = 1%C) by (rewrite <- !RtoC_mult, <- RtoC_plus; f_equal; lra).
    assert (E1 : cvx h1 = (RtoC c * (RtoC c * cvx h1 + RtoC n * cvy h1) - RtoC n * (RtoC (- n) * cvx h1 + RtoC c * cvy h1))%C) by (rewrite RtoC_opp; transitivity ((RtoC c * RtoC c + RtoC n * RtoC n) * cvx h1)%C; [rewrite Uc|]; ring).
    assert (E2 : cvy h2 = (RtoC n * (RtoC c * cvx h2 + RtoC n * cvy h2) + RtoC c * (RtoC (- n) * cvx h2 + RtoC c * cvy h2))%C) by (rewrite RtoC_opp; transitivity ((RtoC c * RtoC c + RtoC n * RtoC n) * cvy h2)%C; [rewrite Uc|]; ring).
    rewrite E1, E2, R1, R2, T1, T2. rewrite ?Rmult_0_l, ?Rmult_1_l, ?Rplus_0_l, ?Rplus_0_r, ?Rminus_0_r, ?Rminus_0_l, ?RtoC_opp.
    transitivity (RtoC (m / (4 * PI)) * ((RtoC c * RtoC c + RtoC n * RtoC n) * - (d + t * / RtoC r)))%C; [ring|]. rewrite Uc. ring.
  Qed.
End More.

Lemma radial_lemma iv kv mu_0 s c n : 0 < mu_0 -> 0 < fd_freq (mh_med s) -> 0 < fd_sigma (mh_med s) -> c * c + n * n = 1 -> forall r, bessel_products iv kv -> 0 < r ->
  vx (mh_orient s) * c + vy (mh_orient s) * n = 0 ->
  is_cint (fun la => RtoC (mh_moment s / (4 * PI) * vz (mh_orient s) * (la ^ 2 * bessel1 (la * r))) * py_rTE mu_0 (fd_freq (mh_med s)) la [fd_sigma_hat (mh_med s)] [RtoC mu_0] [])%C
    (radial (mh_H iv kv mu_0 s true (at_distance (mh_loc s) c n r)) c n).
Proof.
  intros M F S U r B P Z. destruct (parts_of iv kv mu_0 s c n M F S U r P) as (_ & _ & A). rewrite A, Z.
  pose proof (cint_scal (RtoC (mh_moment s / (4 * PI)) * RtoC (vz (mh_orient s)))%C _ _ (g_lemma iv kv mu_0 s M F S r B P)) as G.
  match goal with |- is_cint _ ?x => match type of G with is_cint _ ?y => replace x with y by ring end end.
  eapply cint_ext; [|exact G]. intros la L. cbv beta. rewrite (RtoC_mult (mh_moment s / (4 * PI) * vz (mh_orient s))), (RtoC_mult (mh_moment s / (4 * PI))). ring.
Qed.
Lemma hz_lemma iv kv mu_0 s c n : 0 < mu_0 -> 0 < fd_freq (mh_med s) -> 0 < fd_sigma (mh_med s) -> c * c + n * n = 1 -> forall r, bessel_products iv kv -> 0 < r -> vz (mh_orient s) = 0 ->
  is_cint (fun la => RtoC (- (mh_moment s / (4 * PI) * (vx (mh_orient s) * c + vy (mh_orient s) * n) * (la ^ 2 * bessel1 (la * r)))) * py_rTE mu_0 (fd_freq (mh_med s)) la [fd_sigma_hat (mh_med s)] [RtoC mu_0] [])%C
    (cvz (mh_H iv kv mu_0 s true (at_distance (mh_loc s) c n r))).
Proof.
  intros M F S U r B P Z. destruct (parts_of iv kv mu_0 s c n M F S U r P) as (A & _ & _). rewrite A, Z.
  pose proof (cint_scal (- (RtoC (mh_moment s / (4 * PI)) * RtoC (vx (mh_orient s) * c + vy (mh_orient s) * n)))%C _ _ (g_lemma iv kv mu_0 s M F S r B P)) as G.
  match goal with |- is_cint _ ?x => match type of G with is_cint _ ?y => replace x with y by ring end end.
  eapply cint_ext; [|exact G]. intros la L. cbv beta. rewrite RtoC_opp, (RtoC_mult (mh_moment s / (4 * PI) * (vx (mh_orient s) * c + vy (mh_orient s) * n))), (RtoC_mult (mh_moment s / (4 * PI))). ring.
Qed.
Lemma ground_nz mu_0 s la : 0 < mu_0 -> 0 < fd_freq (mh_med s) -> 0 < fd_sigma (mh_med s) -> 0 < la ->
  py_rTE mu_0 (fd_freq (mh_med s)) la [fd_sigma_hat (mh_med s)] [RtoC mu_0] [] <> RtoC 0.
Proof.
  intros M F S L. rewrite <- (refl_layers mu_0 s la M F S L). pose proof (mh_k_im mu_0 s M F S) as K. set (kk := (Ci * mh_k mu_0 s)%C) in *.
  pose proof (k_nz kk K) as Kn. pose proof (ww_refl kk K la) as E. rewrite (ww_alt kk K la L) in E. pose proof (uu_sum kk K la L) as U.
  assert (N : (uu kk la + RtoC la)%C <> RtoC 0). { intros Z. rewrite Z, Cmod_0 in U. lra. }
  intros Z. rewrite Z in E. assert (Q : (kk / (uu kk la + RtoC la))%C <> RtoC 0). { intros Y. apply Kn. transitivity (kk / (uu kk la + RtoC la) * (uu kk la + RtoC la))%C; [field; exact N|]. rewrite Y. ring. }
  apply (Cmult_neq_0 _ _ Q Q). rewrite E. ring.
Qed.
Lemma half_witness :
  let s := MH (FD 90 2 1 0 PyFalse) 3 (V3 0 1 1) (V3 4 5 6) in
  0 < 1 /\ 0 < fd_freq (mh_med s) /\ 0 < fd_sigma (mh_med s) /\ 1 * 1 + 0 * 0 = 1 /\ vx (mh_orient s) * 1 + vy (mh_orient s) * 0 = 0 /\
  beside (V3 7 8 9) (mh_loc s) /\ forall la, 0 < la ->
  (RtoC (mh_moment s / (4 * PI) * vz (mh_orient s) * la) * py_rTE 1 (fd_freq (mh_med s)) la [fd_sigma_hat (mh_med s)] [RtoC 1] [])%C <> RtoC 0 /\
  (RtoC (mh_moment s / (4 * PI) * (vy (mh_orient s) * 1 - vx (mh_orient s) * 0)) * py_rTE 1 (fd_freq (mh_med s)) la [fd_sigma_hat (mh_med s)] [RtoC 1] [])%C <> RtoC 0.
Proof.
  intros s. assert (F : 0 < fd_freq (mh_med s)) by (cbn; lra). assert (S : 0 < fd_sigma (mh_med s)) by (cbn; lra).
  split; [lra|]. split; [exact F|]. split; [exact S|]. split; [ring|]. split; [cbn; ring|]. split; [left; cbn; lra|].
  intros la L. pose proof (ground_nz 1 s la ltac:(lra) F S L) as G. pose proof PI_RGT_0 as Pi.
  assert (0 < 3 / (4 * PI)) by (apply Rdiv_lt_0_compat; lra).
  split; apply Cmult_neq_0; try exact G; apply RtoC_neq; cbn [mh_moment mh_orient vx vy vz s]; nra.
Qed.
