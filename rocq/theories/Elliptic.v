(** Complete elliptic integrals as Riemann integrals: derivatives with respect to the
    parameter, and the integral of 1/Delta^3.  Generic mathematics. *)
From Coq Require Import Reals Lra.
From Coquelicot Require Import Coquelicot.
From Verif Require Import Vec3 Calculus Deriv Integral.
Open Scope R_scope.

(** 1 - m sin^2 t is bounded away from 0 when m < 1 *)
Lemma delta_pos m t : m < 1 -> 0 < 1 - m * sin t ^ 2.
Proof.
  intro H. pose proof (SIN_bound t) as [A B]. assert (0 <= sin t ^ 2 <= 1) by nra.
  destruct (Rle_dec 0 m); nra.
Qed.

Lemma delta_continuity_2d m t : continuity_2d_pt (fun u v => 1 - u * sin v ^ 2) m t.
Proof.
  apply continuity_2d_pt_minus; [apply continuity_2d_pt_const|].
  apply (continuity_2d_pt_mult (fun u _ => u) (fun _ v => sin v ^ 2)).
  - intros e. exists e. intros u v Hu _. exact Hu.
  - apply (continuity_1d_2d_pt_comp (fun v => sin v ^ 2) (fun _ v => v)).
    + apply (derive_continuity _ _ (INR 2 * (1 * cos t) * sin t ^ 1)). apply (D_pow sin 2). apply (D_sin (fun x => x)). apply D_id.
    + intros e. exists e. intros u v _ Hv. exact Hv.
Qed.

Lemma continuity_2d_sin2 m t : continuity_2d_pt (fun _ v => sin v ^ 2) m t.
Proof.
  apply (continuity_1d_2d_pt_comp (fun v => sin v ^ 2) (fun _ v => v)).
  - apply (derive_continuity _ _ (INR 2 * (1 * cos t) * sin t ^ 1)). apply (D_pow sin 2). apply (D_sin (fun x => x)). apply D_id.
  - intros e. exists e. intros u v _ Hv. exact Hv.
Qed.

Lemma locally_lt1 m : m < 1 -> locally m (fun u => u < 1).
Proof. intro H. apply (open_lt 1). exact H. Qed.

Lemma d_k m t : m < 1 -> is_derive (fun u => / sqrt (1 - u * sin t ^ 2)) m (sin t ^ 2 / 2 * / sqrt (1 - m * sin t ^ 2) ^ 3).
Proof.
  intro H. pose proof (delta_pos m t H) as P. pose proof (sqrt_lt_R0 _ P) as S.
  pose proof (sqrt_sqrt (1 - m * sin t ^ 2) (Rlt_le _ _ P)) as Q.
  eapply is_derive_eq; [der; lra|]. cbn [INR Init.Nat.pred]. set (w := sqrt (1 - m * sin t ^ 2)) in *. field. lra.
Qed.

Lemma d_e m t : m < 1 -> is_derive (fun u => sqrt (1 - u * sin t ^ 2)) m (- (sin t ^ 2 / 2) * / sqrt (1 - m * sin t ^ 2)).
Proof.
  intro H. pose proof (delta_pos m t H) as P. pose proof (sqrt_lt_R0 _ P) as S.
  eapply is_derive_eq; [der; lra|]. set (w := sqrt (1 - m * sin t ^ 2)) in *. field. lra.
Qed.

(** continuity in t of functions of Delta *)
Lemma delta_cont m t : m < 1 -> continuous (fun t => sqrt (1 - m * sin t ^ 2)) t.
Proof.
  intro H. pose proof (delta_pos m t H) as P. apply continuity_pt_filterlim.
  eapply derive_continuity. der. exact P.
Qed.
Lemma delta_inv_cont m t : m < 1 -> continuous (fun t => / sqrt (1 - m * sin t ^ 2)) t.
Proof.
  intro H. pose proof (delta_pos m t H) as P. apply continuity_pt_filterlim. pose proof (sqrt_lt_R0 _ P).
  eapply derive_continuity. der; first [exact P|lra].
Qed.
Lemma delta_inv3_cont m t : m < 1 -> continuous (fun t => / sqrt (1 - m * sin t ^ 2) ^ 3) t.
Proof.
  intro H. pose proof (delta_pos m t H) as P. apply continuity_pt_filterlim. pose proof (sqrt_lt_R0 _ P).
  eapply derive_continuity. der; first [exact P|apply pow_nonzero; lra].
Qed.

Lemma ex_RInt_k m a b : m < 1 -> ex_RInt (fun t => / sqrt (1 - m * sin t ^ 2)) a b.
Proof. intro H. apply (ex_RInt_continuous (V:=R_CompleteNormedModule)). intros t _. apply delta_inv_cont, H. Qed.
Lemma ex_RInt_e m a b : m < 1 -> ex_RInt (fun t => sqrt (1 - m * sin t ^ 2)) a b.
Proof. intro H. apply (ex_RInt_continuous (V:=R_CompleteNormedModule)). intros t _. apply delta_cont, H. Qed.
Lemma ex_RInt_d3 m a b : m < 1 -> ex_RInt (fun t => / sqrt (1 - m * sin t ^ 2) ^ 3) a b.
Proof. intro H. apply (ex_RInt_continuous (V:=R_CompleteNormedModule)). intros t _. apply delta_inv3_cont, H. Qed.

Section Ell.
Variable m : R.
Hypothesis Hm : m < 1.
Let K := RInt (fun t => / sqrt (1 - m * sin t ^ 2)) 0 (PI / 2).
Let E := RInt (fun t => sqrt (1 - m * sin t ^ 2)) 0 (PI / 2).

Lemma is_K : is_RInt (fun t => / sqrt (1 - m * sin t ^ 2)) 0 (PI / 2) K.
Proof. apply (RInt_correct (V:=R_CompleteNormedModule)). apply ex_RInt_k, Hm. Qed.
Lemma is_E : is_RInt (fun t => sqrt (1 - m * sin t ^ 2)) 0 (PI / 2) E.
Proof. apply (RInt_correct (V:=R_CompleteNormedModule)). apply ex_RInt_e, Hm. Qed.

(** int Delta^-3 = E / (1 - m) *)
Lemma int_d3 : is_RInt (fun t => / sqrt (1 - m * sin t ^ 2) ^ 3) 0 (PI / 2) (E / (1 - m)).
Proof.
  assert (PIpos := PI_RGT_0).
  assert (F : is_RInt (fun t => (cos t ^ 2 - sin t ^ 2) / sqrt (1 - m * sin t ^ 2) + m * sin t ^ 2 * cos t ^ 2 / sqrt (1 - m * sin t ^ 2) ^ 3) 0 (PI / 2)
     (sin (PI / 2) * cos (PI / 2) / sqrt (1 - m * sin (PI / 2) ^ 2) - sin 0 * cos 0 / sqrt (1 - m * sin 0 ^ 2))).
  { apply (FTC (fun t => sin t * cos t / sqrt (1 - m * sin t ^ 2))); [lra| |].
    - intros t _. pose proof (delta_pos m t Hm) as P. pose proof (sqrt_lt_R0 _ P) as S.
      pose proof (sqrt_sqrt (1 - m * sin t ^ 2) (Rlt_le _ _ P)) as Q.
      eapply is_derive_eq; [der; lra|]. cbn [INR Init.Nat.pred]. set (w := sqrt (1 - m * sin t ^ 2)) in *. field. lra.
    - intros t _. pose proof (delta_pos m t Hm) as P. pose proof (sqrt_lt_R0 _ P) as S.
      apply continuity_pt_filterlim. eapply derive_continuity. der; first [exact P|lra|apply pow_nonzero; lra]. }
  rewrite cos_PI2, sin_0 in F.
  assert (G := is_RInt_scal _ _ _ (/ (1 - m)) _ (is_RInt_minus _ _ _ _ _ _ is_E (is_RInt_scal _ _ _ m _ F))).
  eapply is_RInt_ext_in; [lra| |].
  2:{ replace (E / (1 - m)) with (scal (/ (1 - m)) (minus E (scal m (sin (PI / 2) * 0 / sqrt (1 - m * sin (PI / 2) ^ 2) - 0 * cos 0 / sqrt (1 - m * 0 ^ 2))))).
      - exact G.
      - unfold scal, minus, plus, opp; cbn. unfold mult; cbn. unfold Rdiv. ring. }
  intros t _. unfold scal, minus, plus, opp; cbn [AbelianGroup.sort ModuleSpace.sort]. cbn. unfold mult; cbn.
  pose proof (delta_pos m t Hm) as P. pose proof (sqrt_lt_R0 _ P) as S.
  pose proof (sqrt_sqrt (1 - m * sin t ^ 2) (Rlt_le _ _ P)) as Q.
  cbn [pow] in *. set (w := sqrt (1 - m * (sin t * (sin t * 1)))) in *.
  assert (C2 : cos t * cos t = 1 - sin t * sin t) by (pose proof (sin2_cos2 t) as HH; unfold Rsqr in HH; lra).
  assert (S2 : m * (sin t * sin t) = 1 - w * w) by lra.
  set (s := sin t) in *. set (c := cos t) in *.
  transitivity (/ (1 - m) * (w * (w * w * w) - m * ((c * c - s * s) * (w * w) + (m * (s * s)) * (c * c))) / (w * w * w)); [|].
  - field; repeat split; lra.
  - rewrite C2. replace (m * ((1 - s * s - s * s) * (w * w) + m * (s * s) * (1 - s * s))) with ((m - 2 * (m * (s * s))) * (w * w) + (m * (s * s)) * (m - m * (s * s))) by ring.
    rewrite S2. field. repeat split; lra.
Qed.
End Ell.

(** derivatives with respect to the parameter *)
Lemma is_derive_ellipk m : m < 1 -> m <> 0 ->
  is_derive (fun u => RInt (fun t => / sqrt (1 - u * sin t ^ 2)) 0 (PI / 2)) m
    ((RInt (fun t => sqrt (1 - m * sin t ^ 2)) 0 (PI / 2) - (1 - m) * RInt (fun t => / sqrt (1 - m * sin t ^ 2)) 0 (PI / 2)) / (2 * m * (1 - m))).
Proof.
  intros H N0. assert (PIpos := PI_RGT_0).
  eapply is_derive_eq.
  - apply is_derive_RInt_param.
    + apply filter_imp with (2 := locally_lt1 m H). intros u Hu t _. eexists. apply d_k, Hu.
    + intros t _. apply continuity_2d_pt_ext_loc with (f := fun u v => sin v ^ 2 / 2 * / sqrt (1 - u * sin v ^ 2) ^ 3).
      * destruct (locally_lt1 m H) as [e He]. exists e. intros u v Hu _. symmetry. apply is_derive_unique, d_k, He, Hu.
      * pose proof (delta_pos m t H) as P. pose proof (sqrt_lt_R0 _ P) as S.
        apply continuity_2d_pt_mult.
        -- apply (continuity_2d_pt_mult (fun _ v => sin v ^ 2) (fun _ _ => / 2)); [apply continuity_2d_sin2|apply continuity_2d_pt_const].
        -- apply (continuity_1d_2d_pt_comp (fun y => / sqrt y ^ 3) (fun u v => 1 - u * sin v ^ 2)); [|apply delta_continuity_2d].
           eapply derive_continuity. der; first [exact P|apply pow_nonzero; lra].
    + apply filter_imp with (2 := locally_lt1 m H). intros u Hu. apply ex_RInt_k, Hu.
  - apply (is_RInt_unique (V:=R_CompleteNormedModule)).
    eapply is_RInt_ext_in; [lra| |].
    + intros t _. symmetry. apply is_derive_unique, d_k, H.
    + assert (G := is_RInt_scal _ _ _ (/ (2 * m)) _ (is_RInt_minus _ _ _ _ _ _ (int_d3 m H) (is_K m H))).
      eapply is_RInt_ext_in; [lra| |].
      2:{ match type of G with is_RInt _ _ _ ?v => match goal with |- is_RInt _ _ _ ?w => replace w with v; [exact G|] end end.
          unfold scal, minus, plus, opp; cbn. unfold mult; cbn. field. lra. }
      intros t _. unfold scal, minus, plus, opp; cbn. unfold mult; cbn.
      pose proof (delta_pos m t H) as P. pose proof (sqrt_lt_R0 _ P) as S.
      pose proof (sqrt_sqrt (1 - m * sin t ^ 2) (Rlt_le _ _ P)) as Q. cbn [pow] in *.
      set (w := sqrt (1 - m * (sin t * (sin t * 1)))) in *. clearbody w.
      assert (S2 : sin t * (sin t * 1) = (1 - w * w) / m) by (field_simplify_eq; [lra|exact N0]).
      rewrite S2. field. split; lra.
Qed.

Lemma is_derive_ellipe m : m < 1 -> m <> 0 ->
  is_derive (fun u => RInt (fun t => sqrt (1 - u * sin t ^ 2)) 0 (PI / 2)) m
    ((RInt (fun t => sqrt (1 - m * sin t ^ 2)) 0 (PI / 2) - RInt (fun t => / sqrt (1 - m * sin t ^ 2)) 0 (PI / 2)) / (2 * m)).
Proof.
  intros H N0. assert (PIpos := PI_RGT_0).
  eapply is_derive_eq.
  - apply is_derive_RInt_param.
    + apply filter_imp with (2 := locally_lt1 m H). intros u Hu t _. eexists. apply d_e, Hu.
    + intros t _. apply continuity_2d_pt_ext_loc with (f := fun u v => - (sin v ^ 2 / 2) * / sqrt (1 - u * sin v ^ 2)).
      * destruct (locally_lt1 m H) as [e He]. exists e. intros u v Hu _. symmetry. apply is_derive_unique, d_e, He, Hu.
      * pose proof (delta_pos m t H) as P. pose proof (sqrt_lt_R0 _ P) as S.
        apply continuity_2d_pt_mult.
        -- apply continuity_2d_pt_opp. apply (continuity_2d_pt_mult (fun _ v => sin v ^ 2) (fun _ _ => / 2)); [apply continuity_2d_sin2|apply continuity_2d_pt_const].
        -- apply (continuity_1d_2d_pt_comp (fun y => / sqrt y) (fun u v => 1 - u * sin v ^ 2)); [|apply delta_continuity_2d].
           eapply derive_continuity. der; first [exact P|lra].
    + apply filter_imp with (2 := locally_lt1 m H). intros u Hu. apply ex_RInt_e, Hu.
  - apply (is_RInt_unique (V:=R_CompleteNormedModule)).
    eapply is_RInt_ext_in; [lra| |].
    + intros t _. symmetry. apply is_derive_unique, d_e, H.
    + assert (G := is_RInt_scal _ _ _ (/ (2 * m)) _ (is_RInt_minus _ _ _ _ _ _ (is_E m H) (is_K m H))).
      eapply is_RInt_ext_in; [lra| |].
      2:{ match type of G with is_RInt _ _ _ ?v => match goal with |- is_RInt _ _ _ ?w => replace w with v; [exact G|] end end.
          unfold scal, minus, plus, opp; cbn. unfold mult; cbn. field. lra. }
      intros t _. unfold scal, minus, plus, opp; cbn. unfold mult; cbn.
      pose proof (delta_pos m t H) as P. pose proof (sqrt_lt_R0 _ P) as S.
      pose proof (sqrt_sqrt (1 - m * sin t ^ 2) (Rlt_le _ _ P)) as Q. cbn [pow] in *.
      set (w := sqrt (1 - m * (sin t * (sin t * 1)))) in *. clearbody w.
      assert (S2 : sin t * (sin t * 1) = (1 - w * w) / m) by (field_simplify_eq; [lra|exact N0]).
      rewrite S2. field. split; lra.
Qed.
