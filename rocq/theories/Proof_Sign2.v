(** Coil pairs on the ground and the central loop at every frequency (C141). *)
From Coq Require Import Reals Lra Psatz List.
From Coquelicot Require Import Coquelicot.
From Verif Require Import Vec3 Calculus Deriv Cplx CplxTaylor SpecFun Model_FDEM Spec_FDEM Spec_Fourier Spec_HalfSpace Proof_FDEM Proof_FDEM4 Proof_FDEM5 Proof_HalfSpace Proof_HalfSpace2 Proof_HalfSpace3 Spec_McNeill Proof_McNeill Proof_McNeill2 Spec_Mirror Proof_Mirror2 Proof_Mirror3 Proof_Sign.
Open Scope R_scope.

Lemma read_scale f mu sg r x (q : C) : 0 < f -> 0 < mu -> 0 < sg -> 0 < r -> x ^ 2 = PI * f * mu * sg * r ^ 2 -> 0 < x ->
  4 / (2 * PI * f * mu * r ^ 2) * Im q = 2 * sg / x ^ 2 * Im q.
Proof. intros F M S P E X. rewrite E. pose proof PI_RGT_0. field. repeat split; lra. Qed.
Lemma between sg x t : 0 < sg -> 0 < x -> 0 < t < x ^ 2 / 2 -> 0 < 2 * sg / x ^ 2 * t < sg.
Proof.
  intros S X [T0 T1]. assert (P : 0 < x ^ 2) by (apply pow_lt; lra). assert (I : 0 < 2 * sg / x ^ 2) by (apply Rdiv_lt_0_compat; lra). split; [now apply Rmult_lt_0_compat|].
  replace sg with (2 * sg / x ^ 2 * (x ^ 2 / 2)) at 2 by (field; lra). apply Rmult_lt_compat_l; assumption.
Qed.
Section Coils.
  Variables (iv kv : nat -> C -> C) (mu_0 : R) (s : mhalf) (c n r : R).
  Hypotheses (M : 0 < mu_0) (F : 0 < fd_freq (mh_med s)) (S : 0 < fd_sigma (mh_med s)) (U : c * c + n * n = 1) (P : 0 < r) (Q : is_True (fd_qs (mh_med s)) = true).
  Hypothesis (Mo : mh_moment s <> 0).
  Let k : C := mh_k mu_0 s.
  Let kk : C := (Ci * k)%C.
  Let u : C := (kk * RtoC r)%C.
  Let f := fd_freq (mh_med s).
  Let sg := fd_sigma (mh_med s).
  Let x := skin_depths f mu_0 sg r.
  Let X : 0 < x := x_pos mu_0 s r M F S P.
  Let X2 : x ^ 2 = PI * f * mu_0 * sg * r ^ 2 := x_sq mu_0 s r M F S.
  Let UX : u = (x, x) := u_xx mu_0 s r M F S P Q.
  Let Ht : cvec := mh_H iv kv mu_0 s false (at_distance (mh_loc s) c n r).
  Let Hs : cvec := mh_H iv kv mu_0 s true (at_distance (mh_loc s) c n r).
  Let o := mh_orient s.
  Let m : R := mh_moment s / (4 * PI * r ^ 3).
  Let NR : RtoC r <> RtoC 0 := rn r P.
  Let KN : kk <> RtoC 0 := kk_nz mu_0 s M F S.
  Let p1 := ((3 - (3 + 3 * u + u * u) * cexp (- u)) / (u * u))%C.
  Let p2 := ((12 - (12 + 12 * u + 5 * (u * u) + u * u * u) * cexp (- u)) / (u * u))%C.
  Let p3 := ((9 - (9 + 9 * u + 4 * (u * u) + u * u * u) * cexp (- u)) / (u * u))%C.
  Lemma m_nz : m <> 0.
  Proof. unfold m. pose proof PI_RGT_0. apply Rmult_integral_contrapositive_currified; [exact Mo|]. apply Rinv_neq_0_compat. assert (0 < r ^ 3) by (apply pow_lt; lra). nra. Qed.
  Lemma transverse_ratio : transverse Hs c n = (RtoC (- (m * (vy o * c - vx o * n))) * (1 - (1 + 1) * p1))%C.
  Proof.
    destruct (parts_of iv kv mu_0 s c n M F S U r P) as (_ & T & _). fold k kk o in T. unfold Hs. rewrite T, (mom_eq s r P). fold m. destruct (tp_u kk r KN P) as (E & _). fold u in E. fold p1 in E. rewrite E.
    rewrite RtoC_opp, (RtoC_mult m). clearbody p1. pose proof NR. cnum. field. exact NR.
  Qed.
  Lemma vertical_ratio : vx o * c + vy o * n = 0 -> cvz Hs = (RtoC (- (m * vz o)) * ((1 + 1) * p3 - 1))%C.
  Proof.
    intros Z. destruct (parts_of iv kv mu_0 s c n M F S U r P) as (T & _ & _). cbv zeta in T. fold k kk o in T. unfold Hs. rewrite T, (mom_eq s r P), Z. fold m. destruct (tp_u kk r KN P) as (E1 & E2). fold u in E1, E2. fold p1 in E1. fold p2 in E2. rewrite E1, E2.
    assert (PP : p2 = (p3 + p1)%C) by (apply p_split; exact (u_nz mu_0 s r M F S P)). rewrite PP. rewrite RtoC_opp, (RtoC_mult m). clearbody p1 p3. pose proof NR. cnum. field. exact NR.
  Qed.
  Lemma meter_all : vy o * c - vx o * n <> 0 ->
    let Hp := (transverse Ht c n - transverse Hs c n)%C in
    0 < apparent_conductivity f mu_0 r (transverse Hs c n) Hp < sg /\ 0 < Re (transverse Hs c n / Hp)%C /\ Cmod (transverse Hs c n - Hp)%C <= Cmod Hp.
  Proof.
    intros V Hp. assert (EP : Hp = RtoC (- (m * (vy o * c - vx o * n)))) by exact (proj2 (primary_of iv kv mu_0 s c n r U P)). rewrite EP. clear EP Hp.
    pose proof m_nz as Nm. assert (N1 : - (m * (vy o * c - vx o * n)) <> 0) by nra. rewrite transverse_ratio. set (w := - (m * (vy o * c - vx o * n))) in *.
    assert (NW : RtoC w <> RtoC 0) by (apply RtoC_neq; exact N1).
    assert (D : (RtoC w * (1 - (1 + 1) * p1) / RtoC w)%C = (1 - (1 + 1) * p1)%C) by (field; exact NW).
    destruct (p1_props x u X UX) as (A1 & (A2 & A3) & A4). fold p1 in A1, A2, A3, A4. unfold apparent_conductivity. rewrite D. split; [|split].
    - rewrite (read_scale f mu_0 sg r x _ F M S P X2 X). apply between; [exact S|exact X|]. assert (E : Im (1 - (1 + 1) * p1)%C = - 2 * Im p1) by (destruct p1; cbn; ring). rewrite E. split; lra.
    - assert (E : Re (1 - (1 + 1) * p1)%C = 1 - 2 * Re p1) by (destruct p1; cbn; ring). rewrite E. lra.
    - replace (RtoC w * (1 - (1 + 1) * p1) - RtoC w)%C with (- (RtoC w * ((1 + 1) * p1)))%C by ring. rewrite Cmod_opp, !Cmod_mult. replace (1 + 1)%C with (RtoC 2) by (rewrite <- RtoC_plus; f_equal; ring). rewrite (Cmod_R 2), (Rabs_pos_eq 2) by lra.
      pose proof (Cmod_ge_0 (RtoC w)). nra.
  Qed.
  Lemma meter_negative : 5 <= x -> vx o * c + vy o * n = 0 -> vz o <> 0 -> apparent_conductivity f mu_0 r (cvz Hs) (cvz Ht - cvz Hs)%C < 0.
  Proof.
    intros X5 Z V. unfold Ht. unfold Hs at 2. rewrite (proj1 (primary_of iv kv mu_0 s c n r U P)). fold o m. rewrite (vertical_ratio Z).
    pose proof m_nz as Nm. assert (N1 : - (m * vz o) <> 0) by nra. set (w := - (m * vz o)) in *. assert (NW : RtoC w <> RtoC 0) by (apply RtoC_neq; exact N1).
    assert (D : (RtoC w * ((1 + 1) * p3 - 1) / RtoC w)%C = ((1 + 1) * p3 - 1)%C) by (field; exact NW). unfold apparent_conductivity. rewrite D, (read_scale f mu_0 sg r x _ F M S P X2 X).
    pose proof (p3_far mu_0 s r M F S P Q) as B. cbv zeta in B. fold k kk u in B. fold p3 in B. fold f sg x in B. pose proof (tail_small x X5) as T. unfold through_vertical in B.
    assert (Im0 : Rabs (Im (RtoC 2 * (p3 + Ci * RtoC (9 / 2 / x ^ 2)))%C) < 9 / x ^ 2) by (eapply Rle_lt_trans; [apply im_le|lra]).
    assert (Ei : Im (RtoC 2 * (p3 + Ci * RtoC (9 / 2 / x ^ 2)))%C = 2 * Im p3 + 9 / x ^ 2) by (destruct p3 as [a b]; cbn; field; lra). rewrite Ei in Im0. apply Rabs_def2 in Im0.
    assert (E : Im ((1 + 1) * p3 - 1)%C = 2 * Im p3) by (destruct p3; cbn; ring). rewrite E.
    assert (0 < 2 * sg / x ^ 2) by (apply Rdiv_lt_0_compat; [unfold sg; lra|apply pow_lt; exact X]). nra.
  Qed.
End Coils.

Lemma loop_all f sg mu a I n : 0 < f -> 0 < sg -> 0 < mu -> 0 < a -> n * I <> 0 ->
  let Hs := loop_hz f sg mu a I n true in let Ht := loop_hz f sg mu a I n false in let Hp := (Ht - Hs)%C in
  0 < apparent_conductivity f mu a (- Hs)%C Hp < sg /\ Re (Hs / Hp)%C < 0 /\ Cmod Ht <= Cmod Hp.
Proof.
  intros F Sg M A NI Hs Ht Hp. pose proof PI_RGT_0 as Pi. destruct (loop_u f sg mu a I n F Sg M A) as (u & D & U0 & UU & E).
  set (x := skin_depths f mu sg a).
  assert (W : 0 < PI * f * mu * sg) by pos3. assert (X : 0 < x) by (unfold x, skin_depths; apply Rmult_lt_0_compat; [exact A|now apply sqrt_lt_R0]).
  assert (X2 : x ^ 2 = PI * f * mu * sg * a ^ 2) by (unfold x, skin_depths; rewrite Rpow_mult_distr, pow2_sqrt by lra; ring).
  assert (Ux : u = (x, x)). { apply root_of_i; [exact X|exact D|]. rewrite UU, X2. generalize (a ^ 2). intros a2. apply C_eq; cbn; ring. }
  set (w := n * I / (2 * a)).
  assert (NW : RtoC w <> RtoC 0). { apply RtoC_neq. unfold w. apply Rmult_integral_contrapositive_currified; [exact NI|apply Rinv_neq_0_compat; lra]. }
  assert (EP : Hp = RtoC w).
  { unfold Hp, Ht, Hs, loop_hz. cbv zeta. match goal with |- (RtoC n * ?h - _)%C = _ => set (h0 := h) end. unfold w. replace (n * I / (2 * a)) with (n * (I / 2 / a)) by (field; lra). rewrite RtoC_mult. ring. }
  destruct (p1_props x u X Ux) as (A1 & (A2 & A3) & A4). set (p := ((3 - (3 + 3 * u + u * u) * cexp (- u)) / (u * u))%C) in *.
  assert (Es : Hs = (RtoC w * ((1 + 1) * p - 1))%C).
  { unfold Hs. rewrite E. replace (n * I / a) with (w * 2) by (unfold w; field; lra). rewrite RtoC_mult. replace (RtoC 2) with (1 + 1)%C by (rewrite <- RtoC_plus; f_equal; ring).
    assert (HH : ((1 + 1) * RtoC (1 / 2))%C = 1%C) by (apply C_eq; cbn; field). clearbody p. transitivity (RtoC w * ((1 + 1) * p - (1 + 1) * RtoC (1 / 2)))%C; [ring|rewrite HH; ring]. }
  assert (Et : Ht = (RtoC w * ((1 + 1) * p))%C) by (transitivity (Hp + Hs)%C; [unfold Hp; ring|rewrite EP, Es; ring]).
  split; [|split].
  - unfold apparent_conductivity. rewrite EP, Es. replace (- (RtoC w * ((1 + 1) * p - 1)) / RtoC w)%C with (1 - (1 + 1) * p)%C by (clearbody p; field; exact NW).
    rewrite (read_scale f mu sg a x _ F M Sg A X2 X). apply between; [exact Sg|exact X|]. assert (Ei : Im (1 - (1 + 1) * p)%C = - 2 * Im p) by (destruct p; cbn; ring). rewrite Ei. split; lra.
  - rewrite EP, Es. replace (RtoC w * ((1 + 1) * p - 1) / RtoC w)%C with ((1 + 1) * p - 1)%C by (clearbody p; field; exact NW). assert (Ei : Re ((1 + 1) * p - 1)%C = 2 * Re p - 1) by (destruct p; cbn; ring). rewrite Ei. lra.
  - rewrite Et, EP, !Cmod_mult. replace (1 + 1)%C with (RtoC 2) by (rewrite <- RtoC_plus; f_equal; ring). rewrite (Cmod_R 2), (Rabs_pos_eq 2) by lra. pose proof (Cmod_ge_0 (RtoC w)). nra.
Qed.
