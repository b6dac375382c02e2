(** The vacuum permeability constant matters; empty arrays *)
From Coq Require Import Reals List ZArith Lia Lra.
From Coquelicot Require Import Coquelicot.
From Verif Require Import Calculus Cplx Deriv Proof_FDEM Numpy Model_RTE Proof_RTE Proof_RTE2 Proof_RTE3 Proof_RTE6 Proof_RTE7 Proof_RTE8 Spec_RTE.
Import ListNotations.
Open Scope R_scope.

Lemma Ci_neq : Ci <> RtoC 0.
Proof. intros E. apply (f_equal Im) in E. cbn in E. lra. Qed.

Lemma mu0_matters mu0 mu0' f lamb sigma mu th : 0 < mu0 -> 0 < mu0' -> mu0 <> mu0' -> 0 < f -> 0 < lamb -> ground f lamb sigma mu th ->
  py_rTE mu0 f lamb sigma mu th <> py_rTE mu0' f lamb sigma mu th.
Proof.
  intros P P' D Pf Pl HS E. destruct (stack_lengths _ _ _ _ HS) as [L1 L2]. rewrite !py_rTE_yl in E by assumption.
  pose proof (omega_pos f Pf) as Pw. unfold ground in HS. set (w := 2 * PI * f) in *.
  pose proof (stack_upper w lamb Pw _ _ _ HS) as U. set (y := yl w lamb sigma mu th) in *.
  pose proof (top_neq w lamb mu0 y Pw Pl P U) as N. pose proof (top_neq w lamb mu0' y Pw Pl P' U) as N'.
  assert (Ny : y <> RtoC 0). { intros Z. apply (upper_neq_0 _ U). rewrite Z. ring. }
  set (a := (RtoC lamb / (Ci * RtoC w * RtoC mu0))%C) in *. set (b := (RtoC lamb / (Ci * RtoC w * RtoC mu0'))%C) in *.
  assert (K : (RtoC 2 * y * (a - b))%C = RtoC 0).
  { replace (RtoC 2 * y * (a - b))%C with (((a - y) / (a + y) - (b - y) / (b + y)) * ((a + y) * (b + y)))%C.
    - rewrite E. ring.
    - replace (RtoC 2) with (RtoC 1 + RtoC 1)%C by (apply C_eq; cbn; ring). field. auto. }
  assert (AB : (a - b)%C = RtoC 0).
  { destruct (Ceq_dec (a - b)%C (RtoC 0)) as [Z|Z]; [exact Z|]. exfalso. revert K. apply Cmult_neq; [apply Cmult_neq; [apply C2_neq|exact Ny]|exact Z]. }
  apply D. apply RtoC_inj.
  assert (Nl : RtoC lamb <> RtoC 0) by (apply RtoC_neq; lra). assert (Nw : RtoC w <> RtoC 0) by (apply RtoC_neq; lra).
  assert (Nm : RtoC mu0 <> RtoC 0) by (apply RtoC_neq; lra). assert (Nm' : RtoC mu0' <> RtoC 0) by (apply RtoC_neq; lra). pose proof Ci_neq.
  assert (Z : (RtoC mu0' - RtoC mu0 = Ci * RtoC w * RtoC mu0 * RtoC mu0' / RtoC lamb * (a - b))%C).
  { unfold a, b. field. repeat split; assumption. }
  rewrite AB in Z. replace (RtoC mu0) with (RtoC mu0' - (RtoC mu0' - RtoC mu0))%C by ring. rewrite Z. ring.
Qed.

Lemma empty_lemma fuel mu0 lamb sigma mu th : a_cols sigma = 0%nat -> a_rows sigma = (length th + 1)%nat -> a_rows mu = a_rows sigma -> a_cols mu = 0%nat ->
  pyx_rTE_forward fuel [] lamb sigma mu th = Raise IndexError /\ py_rTE_forward mu0 [] lamb sigma mu th = [].
Proof.
  intros A B D E. split; [|reflexivity]. unfold pyx_rTE_forward. cbn [length]. rewrite A, B, D, E, B, !Nat.eqb_refl. reflexivity.
Qed.
Lemma shape_lemma fuel frequencies lamb sigma mu th :
  (a_cols sigma <> length frequencies \/ a_rows sigma <> (length th + 1)%nat \/ a_rows mu <> a_rows sigma \/ a_cols mu <> a_cols sigma) ->
  pyx_rTE_forward fuel frequencies lamb sigma mu th = Raise ValueError /\ pyx_rTE_gradient fuel frequencies lamb sigma mu th = Raise ValueError.
Proof.
  intros H. unfold pyx_rTE_forward, pyx_rTE_gradient.
  destruct (Nat.eqb_spec (length frequencies) (a_cols sigma)); cbn [negb]; [|auto].
  destruct (Nat.eqb_spec (a_rows sigma) (length th + 1)); cbn [negb]; [|auto].
  destruct (Nat.eqb_spec (a_rows mu) (a_rows sigma)); cbn [negb andb]; [|auto].
  destruct (Nat.eqb_spec (a_cols mu) (a_cols sigma)); cbn [negb andb]; [|auto].
  destruct H as [H|[H|[H|H]]]; congruence.
Qed.

(** array form of the forward agreement *)
Lemma C18_array_lemma fuel frequencies lamb sigma mu th :
  a_cols sigma = length frequencies -> a_rows sigma = (length th + 1)%nat -> a_rows mu = a_rows sigma -> a_cols mu = a_cols sigma ->
  frequencies <> [] -> lamb <> [] ->
  (Z.of_nat (length frequencies * a_rows sigma) < 2 ^ 64)%Z -> (Z.of_nat (length frequencies * length lamb) < 2 ^ 64)%Z ->
  (a_rows sigma + length frequencies + length lamb <= fuel)%nat ->
  exists out, pyx_rTE_forward fuel frequencies lamb sigma mu th = Ok (Some out) /\
    length out = (length frequencies * length lamb)%nat /\
    forall f i, (f < length frequencies)%nat -> (i < length lamb)%nat ->
      from_F (length frequencies) (length lamb) out f i = Some (nth i (nth f (py_rTE_forward cpp_mu_0 frequencies lamb sigma mu th) []) (RtoC 0)).
Proof.
  intros A B D E F G S1 S2 Hf. destruct (C18_forward_lemma fuel frequencies lamb sigma mu th A B D E F G S1 S2 Hf) as (out & X & L & V).
  exists out. split; [exact X|]. split; [exact L|]. intros f i Hf' Hi. rewrite V by assumption. f_equal.
  unfold py_rTE_forward. set (row := fun f : nat => map _ _).
  rewrite (nth_indep _ [] (row 0%nat)) by (rewrite map_length, seq_length; assumption). rewrite (map_nth row), seq_nth by assumption.
  unfold row. cbn [Nat.add]. set (cell := fun i : nat => py_rTE _ _ _ _ _ _).
  rewrite (nth_indep _ (RtoC 0) (cell 0%nat)) by (rewrite map_length, seq_length; assumption). rewrite (map_nth cell), seq_nth by assumption. reflexivity.
Qed.

Lemma gradient_shapes mu0 f lamb sigma mu th :
  length sigma = (length th + 1)%nat -> length mu = (length th + 1)%nat ->
  let '(dsigma, dh, dmu) := py_rTE_gradient mu0 f lamb sigma mu th in
  length dsigma = length sigma /\ length dh = length th /\ length dmu = length mu.
Proof.
  intros A B. rewrite py_gradient_val by lia. rewrite !app_length, !map_length, !seq_length. cbn [length]. lia.
Qed.

Lemma quasistatic_lemma f lamb sigma mu th : 0 < lamb ->
  List.Forall (fun s => 0 <= s) sigma -> List.Forall (fun m => 0 < m) mu -> List.Forall (fun h => 0 <= h) th ->
  length sigma = (length th + 1)%nat -> length mu = (length th + 1)%nat ->
  slow_ground f lamb (map RtoC sigma) (map RtoC mu) th.
Proof.
  intros Pl Fs Fm Ft L1 L2. unfold slow_ground, stack. rewrite map_length. split; [assumption|]. split; [|assumption].
  assert (L : length sigma = length mu) by lia. clear L1 L2. revert mu Fm L.
  induction Fs as [|s sg Hs Fs IH]; intros [|m mm] Fm L; cbn in L; try lia; [constructor|].
  inversion Fm; subst. cbn [map]. constructor; [|apply IH; [assumption|lia]].
  exists m. split; [assumption|]. split; [reflexivity|]. cbn. split; [assumption|]. nra.
Qed.

Lemma curves_lemma : is_curve (fun t => [RtoC 0; RtoC (1 + t)]) 0 [RtoC 0; RtoC 1] /\ is_rcurve (fun t => [3 + 2 * t]) 0 [2].
Proof.
  split; split; try reflexivity; intros [|[|k]] Hk; cbn in Hk; try lia; cbn [nth].
  - apply CD_const.
  - apply CD_real. apply is_derive_eq with (0 + 1); [apply D_plus; [apply D_const|apply D_id]|ring].
  - apply is_derive_eq with (0 + (0 * 0 + 2 * 1)); [apply D_plus; [apply D_const|apply D_mult; [apply D_const|apply D_id]]|ring].
Qed.
