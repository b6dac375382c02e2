(** rTE_gradient: the C++ reverse sweep *)
From Coq Require Import Reals List ZArith Bool Lia Lra.
From Coquelicot Require Import Coquelicot.
From Verif Require Import Cplx Numpy Model_RTE Proof_RTE Proof_RTE2 Proof_RTE3.
Import ListNotations.
Open Scope Z_scope.

(** local vectors: sizes, and contents from layer [k] down *)
Definition sizes (n : nat) (s : gstate) : Prop :=
  length (g_k2s s) = S n /\ length (g_us s) = S n /\ length (g_Yhs s) = S n /\ length (g_Ys s) = n /\ length (g_tanhs s) = n.
Definition locals (n : nat) (U Y t Yh : nat -> C) (k : nat) (s : gstate) : Prop :=
  (forall j, (k <= j <= n)%nat -> rd_cell (g_us s) (Z.of_nat j) = Some (U j) /\ rd_cell (g_Yhs s) (Z.of_nat j) = Some (Yh j)) /\
  (forall j, (k <= j < n)%nat -> rd_cell (g_Ys s) (Z.of_nat j) = Some (Y j) /\ rd_cell (g_tanhs s) (Z.of_nat j) = Some (t j)).
Definition same_out (s s' : gstate) : Prop := g_ds s = g_ds s' /\ g_dm s = g_dm s' /\ g_dh s = g_dh s'.

Section Cell.
  Variables (sigma mu : arr2) (th : list R) (f : nat) (freq lam : R).
  Let n := length th.
  Hypothesis Rs : a_rows sigma = S n.
  Hypothesis Rm : a_rows mu = S n.
  Hypothesis Cm : a_cols mu = a_cols sigma.
  Hypothesis Hf : (f < a_cols sigma)%nat.
  Hypothesis Hn : Z.of_nat (S n) < size_max.
  Let w := py_omega freq.
  Let sg := column sigma f.
  Let mm := column mu f.
  Let U := u_val w lam sg mm.
  Let Y := Y_val w lam sg mm.
  Let t := t_val w lam sg mm th.
  Let Yh := yh_val w lam sg mm th.
  Let so := Z.of_nat (f * S n).

  Lemma down_ok k s : (k < n)%nat -> sizes n s -> locals n U Y t Yh (S k) s ->
    exists s', cpp_grad_down w (lam * lam) (flat_F sigma) (flat_F mu) so th (Z.of_nat k) s = Some s' /\
      sizes n s' /\ locals n U Y t Yh k s' /\ same_out s s'.
  Proof.
    intros Hk (Z1 & Z2 & Z3 & Z4 & Z5) (L1 & L2). unfold cpp_grad_down, so.
    rewrite (rd_mu sigma mu th f), (rd_sigma sigma mu th f) by (fold n; lia). fold sg mm.
    destruct (wr_ok (g_k2s s) k (- Ci * RtoC w * cget mm k * cget sg k)%C ltac:(lia)) as (k2s & -> & A1 & A2 & A3). rewrite A2.
    destruct (wr_ok (g_us s) k (csqrt (RtoC (lam * lam) - (- Ci * RtoC w * cget mm k * cget sg k))%C) ltac:(lia)) as (us & -> & B1 & B2 & B3). rewrite B2.
    destruct (wr_ok (g_Ys s) k (csqrt (RtoC (lam * lam) - (- Ci * RtoC w * cget mm k * cget sg k)) / (Ci * RtoC w * cget mm k))%C ltac:(lia)) as (Ys & -> & C1 & C2 & C3).
    rewrite rd_nat, nth_error_rget by (fold n; lia).
    destruct (wr_ok (g_tanhs s) k (ctanh (csqrt (RtoC (lam * lam) - (- Ci * RtoC w * cget mm k * cget sg k)) * RtoC (rget th k))%C) ltac:(lia)) as (ts & -> & D1 & D2 & D3).
    rewrite C2, D2.
    replace (wrap (Z.of_nat k + 1)) with (Z.of_nat (S k)) by (rewrite wrap_small; lia).
    destruct (L1 (S k) ltac:(lia)) as [_ ->].
    match goal with |- context [wr (g_Yhs s) _ ?v] => destruct (wr_ok (g_Yhs s) k v ltac:(lia)) as (Yhs & -> & E1 & E2 & E3) end.
    eexists; split; [reflexivity|]. cbn [g_k2s g_us g_Yhs g_Ys g_tanhs].
    split; [unfold sizes; cbn [g_k2s g_us g_Yhs g_Ys g_tanhs]; lia|]. split; [|repeat split; reflexivity].
    split; intros j Hj; cbn [g_k2s g_us g_Yhs g_Ys g_tanhs]; (destruct (Nat.eq_dec j k) as [->|N]).
    - rewrite B2, E2. split; [reflexivity|]. f_equal. symmetry. apply (yh_val_step w lam sg mm th k Hk).
    - rewrite B3, E3 by assumption. apply L1. lia.
    - rewrite C2, D2. split; reflexivity.
    - rewrite C3, D3 by assumption. apply L2. lia.
  Qed.

  Section Up.
    Variables (i tot1 tot2 : nat) (vs vm vh : nat -> C).
    Hypothesis Hi1 : (S i * S n <= tot1)%nat.
    Hypothesis Hi2 : (S i * n <= tot2)%nat.
    Hypothesis Ht1 : Z.of_nat tot1 < size_max.
    Hypothesis Ht2 : Z.of_nat tot2 < size_max.
    Let g k := g_at cpp_mu_0 freq lam sg mm th k.
    Hypothesis Vs : forall k, (k < n)%nat -> vs (i * S n + k)%nat = ds_at cpp_mu_0 freq lam sg mm th k.
    Hypothesis Vm : forall k, (k < n)%nat -> vm (i * S n + k)%nat = dm_at cpp_mu_0 freq lam sg mm th k.
    Hypothesis Vh : forall k, (k < n)%nat -> vh (i * n + k)%nat = dh_at cpp_mu_0 freq lam sg mm th k.
    Hypothesis Vsl : vs (i * S n + n)%nat = ds_last cpp_mu_0 freq lam sg mm th.
    Hypothesis Vml : vm (i * S n + n)%nat = dm_last cpp_mu_0 freq lam sg mm th.
    Definition outs (k1 k2 : nat) (s : gstate) : Prop := written tot1 k1 vs (g_ds s) /\ written tot1 k1 vm (g_dm s) /\ written tot2 k2 vh (g_dh s).

    Lemma up_ok k s : (k < n)%nat -> sizes n s -> locals n U Y t Yh 0 s -> outs (i * S n + k) (i * n + k) s ->
      exists s', cpp_grad_up w (flat_F sigma) (flat_F mu) so th (Z.of_nat (S n)) (Z.of_nat i) (Z.of_nat k) (s, g k) = Some (s', g (S k)) /\
        sizes n s' /\ locals n U Y t Yh 0 s' /\ outs (i * S n + S k) (i * n + S k) s'.
    Proof.
      intros Hk HZ (L1 & L2) (O1 & O2 & O3). unfold cpp_grad_up.
      destruct (L2 k ltac:(lia)) as [-> ->]. destruct (L1 k ltac:(lia)) as [-> _].
      replace (wrap (Z.of_nat k + 1)) with (Z.of_nat (S k)) by (rewrite wrap_small; lia).
      destruct (L1 (S k) ltac:(lia)) as [_ ->].
      rewrite rd_nat, nth_error_rget by (fold n; lia). unfold so.
      rewrite (rd_mu sigma mu th f), (rd_sigma sigma mu th f) by (fold n; lia). fold sg mm.
      replace (wrap (Z.of_nat (S n) - 1)) with (Z.of_nat n) by (rewrite wrap_small; lia).
      replace (wrap (Z.of_nat i * Z.of_nat n) + Z.of_nat k) with (Z.of_nat (i * n + k)) by (rewrite wrap_small; nia).
      replace (wrap (Z.of_nat i * Z.of_nat (S n)) + Z.of_nat k) with (Z.of_nat (i * S n + k)) by (rewrite wrap_small; nia).
      cbv zeta.
      match goal with |- context [wr_once (g_dh s) _ ?v] => destruct (written_S _ _ vh _ v O3 ltac:(nia)) as (dh & -> & W3) end.
      { rewrite Vh by assumption. reflexivity. }
      match goal with |- context [wr_once (g_ds s) _ ?v] => destruct (written_S _ _ vs _ v O1 ltac:(nia)) as (ds & -> & W1) end.
      { rewrite Vs by assumption. reflexivity. }
      match goal with |- context [wr_once (g_dm s) _ ?v] => destruct (written_S _ _ vm _ v O2 ltac:(nia)) as (dm & -> & W2) end.
      { rewrite Vm by assumption. reflexivity. }
      eexists; split; [reflexivity|]. split; [exact HZ|]. split; [split; assumption|].
      rewrite !Nat.add_succ_r. repeat split; cbn [g_ds g_dm g_dh]; try apply W1; try apply W2; try apply W3.
    Qed.

    Lemma cell_ok fuel s : (n <= fuel)%nat -> sizes n s -> outs (i * S n) (i * n) s ->
      exists s', cpp_grad_cell fuel lam freq (flat_F sigma) (flat_F mu) so th (Z.of_nat (S n)) (Z.of_nat i) s = Some s' /\
        sizes n s' /\ outs (S i * S n) (S i * n) s'.
    Proof.
      intros Hfu HZ HO. unfold cpp_grad_cell. fold (py_omega freq). fold w.
      assert (W : wrap (Z.of_nat (S n) - 1) = Z.of_nat n) by (rewrite wrap_small; lia).
      cbv zeta. rewrite W. unfold so.
      rewrite (rd_mu sigma mu th f), (rd_sigma sigma mu th f) by (fold n; lia). fold sg mm. fold so.
      destruct HZ as (Z1 & Z2 & Z3 & Z4 & Z5).
      destruct (wr_ok (g_k2s s) n (- Ci * RtoC w * cget mm n * cget sg n)%C ltac:(lia)) as (k2s & -> & A1 & A2 & A3). rewrite A2.
      destruct (wr_ok (g_us s) n (csqrt (RtoC (lam * lam) - (- Ci * RtoC w * cget mm n * cget sg n))%C) ltac:(lia)) as (us & -> & B1 & B2 & B3). rewrite B2.
      match goal with |- context [wr (g_Yhs s) _ ?v] => destruct (wr_ok (g_Yhs s) n v ltac:(lia)) as (Yhs & -> & E1 & E2 & E3) end.
      set (s1 := GS _ _ _ _ _ _ _ _).
      pose proof (c_for_down (fun k s => sizes n s /\ locals n U Y t Yh k s /\ same_out s1 s) n fuel
        (cpp_grad_down w (lam * lam) (flat_F sigma) (flat_F mu) so th) s1 Hfu Hn) as Q.
      rewrite W in Q. destruct Q as (s2 & -> & HZ2 & HL2 & HO2).
      { split; [unfold sizes, s1; cbn [g_k2s g_us g_Yhs g_Ys g_tanhs]; lia|]. split; [|repeat split; reflexivity].
        split; intros j Hj; [|lia]. assert (j = n) by lia; subst j. unfold s1; cbn [g_k2s g_us g_Yhs g_Ys g_tanhs].
        rewrite B2, E2. split; [reflexivity|]. f_equal. symmetry. apply yh_val_last. }
      { intros k s' Hk (a & b & c). destruct (down_ok k s' Hk a b) as (s'' & -> & a' & b' & c').
        exists s''; split; [reflexivity|]. split; [assumption|]. split; [assumption|].
        destruct c as (c1 & c2 & c3), c' as (d1 & d2 & d3). repeat split; congruence. }
      destruct (proj1 HL2 0%nat ltac:(lia)) as [_ F0]. cbn [Z.of_nat] in F0. rewrite F0.
      match goal with |- context [c_for fuel 0 _ incr _ (s2, ?x)] => change x with (g 0%nat) end.
      assert (HO3 : outs (i * S n + 0) (i * n + 0) s2).
      { rewrite !Nat.add_0_r. destruct HO2 as (c1 & c2 & c3). unfold outs. rewrite <- c1, <- c2, <- c3. exact HO. }
      destruct (c_for_up (fun k (p : gstate * C) => snd p = g k /\ sizes n (fst p) /\ locals n U Y t Yh 0 (fst p) /\ outs (i * S n + k) (i * n + k) (fst p)) n fuel
         (cpp_grad_up w (flat_F sigma) (flat_F mu) so th (Z.of_nat (S n)) (Z.of_nat i)) (s2, g 0%nat)) as ([s3 g3] & -> & Eg & HZ3 & HL3 & HO3').
      { assumption. } { lia. }
      { cbn [fst snd]. auto. }
      { intros k [s' g'] Hk (a & b & c & d). cbn [fst snd] in *. subst g'.
        destruct (up_ok k s' Hk b c d) as (s'' & -> & b' & c' & d'). exists (s'', g (S k)). cbn [fst snd]. auto. }
      cbn [fst snd] in *. subst g3.
      destruct (proj1 HL3 n ltac:(lia)) as [-> ->].
      replace (wrap (Z.of_nat i * Z.of_nat (S n)) + Z.of_nat n) with (Z.of_nat (i * S n + n)) by (rewrite wrap_small; nia).
      destruct HO3' as (O1 & O2 & O3).
      match goal with |- context [wr_once (g_ds s3) _ ?v] => destruct (written_S _ _ vs _ v O1 ltac:(nia)) as (ds & -> & W1) end.
      { rewrite Vsl. unfold ds_last. fold n w. unfold gk2_last. fold w n U (g n). ring. }
      match goal with |- context [wr_once (g_dm s3) _ ?v] => destruct (written_S _ _ vm _ v O2 ltac:(nia)) as (dm & -> & W2) end.
      { rewrite Vml. unfold dm_last. fold n w. unfold gk2_last. fold w n U Yh (g n). ring. }
      eexists; split; [reflexivity|]. split; [exact HZ3|].
      replace (S i * S n)%nat with (S (i * S n + n)) by lia. replace (S i * n)%nat with (i * n + n)%nat by lia.
      repeat split; cbn [g_ds g_dm g_dh]; try apply W1; try apply W2; try apply O3.
    Qed.
  End Up.
End Cell.
