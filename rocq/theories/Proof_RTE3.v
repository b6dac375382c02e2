(** rTE_gradient: compiled = numpy *)
From Coq Require Import Reals List ZArith Bool Lia Lra.
From Coquelicot Require Import Coquelicot.
From Verif Require Import Cplx Numpy Model_RTE Proof_RTE Proof_RTE2.
Import ListNotations.
Open Scope Z_scope.

Section PyYh.
  Variables (Y t : nat -> C).
  Lemma down_snoc m : forall k b, down Y t (S m) k b = down Y t m k (Y (k + m)%nat * (b + Y (k + m)%nat * t (k + m)%nat) / (Y (k + m)%nat + b * t (k + m)%nat))%C.
  Proof.
    induction m as [|m IH]; intros k b.
    - cbn [down]. rewrite Nat.add_0_r. reflexivity.
    - rewrite down_S. rewrite IH. rewrite (down_S Y t m k). replace (S k + m)%nat with (k + S m)%nat by lia. reflexivity.
  Qed.
End PyYh.

Lemma py_Yh_eq (Ya ta : list C) (Y t : nat -> C) n k : (forall j, (j < n)%nat -> cget Ya j = Y j /\ cget ta j = t j) ->
  (k <= n)%nat -> py_Yh Ya ta (n + 1) k = down Y t (n - k) k (last Ya (RtoC 0)).
Proof.
  intros H Hk. unfold py_Yh. replace (n + 1 - 1 - k)%nat with (n - k)%nat by lia. replace (n + 1 - 1)%nat with (k + (n - k))%nat by lia.
  assert (B : (k + (n - k) <= n)%nat) by lia. revert B. generalize (n - k)%nat as m. intros m.
  generalize (last Ya (RtoC 0)) as b.
  induction m as [|m IH]; intros b B; [reflexivity|].
  rewrite down_snoc. rewrite <- IH by lia.
  replace (k + S m)%nat with (S (k + m)) by lia. cbn [Nat.pred].
  destruct (H (k + m)%nat ltac:(lia)) as [-> ->]. reflexivity.
Qed.

(** one step of the sweep *)
Section Step.
  Variables (w : R) (s m : nat -> C) (h : nat -> R) (U Y t Yh : nat -> C).
  Definition st_bot k := ((Y k + Yh (S k) * t k) * (Y k + Yh (S k) * t k))%C.
  Definition st_gy k g := (g * t k * (RtoC 2 * t k * Y k * Yh (S k) + Y k * Y k + Yh (S k) * Yh (S k)) / st_bot k)%C.
  Definition st_gtanh k g := (g * (Y k * Y k * Y k - Y k * Yh (S k) * Yh (S k)) / st_bot k)%C.
  Definition st_next k g := (g * - (t k * t k - RtoC 1) * Y k * Y k / st_bot k)%C.
  Definition st_dh k g := (st_gtanh k g * U k * (RtoC 1 - t k * t k))%C.
  Definition st_gu k g := (st_gtanh k g * RtoC (h k) * (RtoC 1 - t k * t k) + st_gy k g / (Ci * RtoC w * m k))%C.
  Definition st_gk2 k g := (st_gu k g * RtoC (- / 2) / U k)%C.
  Definition st_dm k g := (st_gy k g * (- Y k / m k) - st_gk2 k g * (Ci * RtoC w * s k))%C.
  Definition st_ds k g := (st_gk2 k g * (- Ci * RtoC w * m k))%C.
  Fixpoint st_g (g0 : C) (k : nat) : C := match k with O => g0 | S k' => st_next k' (st_g g0 k') end.
End Step.

Lemma py_sweep_eq w sigma mu th ua Ya ta (U Y t Yh : nat -> C) g0 n :
  (forall k, (k < n)%nat -> cget ua k = U k /\ cget Ya k = Y k /\ cget ta k = t k) ->
  forall m k, (k + m <= n)%nat ->
  py_sweep w sigma mu th ua Ya ta Yh m k (st_g Y t Yh g0 k) =
  (map (fun j => st_ds w (cget mu) (rget th) U Y t Yh j (st_g Y t Yh g0 j)) (seq k m),
   map (fun j => st_dh U Y t Yh j (st_g Y t Yh g0 j)) (seq k m),
   map (fun j => st_dm w (cget sigma) (cget mu) (rget th) U Y t Yh j (st_g Y t Yh g0 j)) (seq k m),
   st_g Y t Yh g0 (k + m)).
Proof.
  intros H; induction m as [|m IH]; intros k Hk; cbn [py_sweep seq map].
  - rewrite Nat.add_0_r; reflexivity.
  - destruct (H k ltac:(lia)) as (-> & -> & ->). cbv zeta.
    replace (k + 1)%nat with (S k) by lia.
    change (st_g Y t Yh g0 k * - (t k * t k - RtoC 1) * Y k * Y k / ((Y k + Yh (S k) * t k) * (Y k + Yh (S k) * t k)))%C with (st_g Y t Yh g0 (S k)).
    rewrite IH by lia. replace (S k + m)%nat with (k + S m)%nat by lia. reflexivity.
Qed.

Section Grad.
  Variables (mu0 f lamb : R) (sigma mu : list C) (th : list R).
  Let n := length th.
  Let w := py_omega f.
  Hypothesis Ls : length sigma = S n.
  Hypothesis Lm : length mu = S n.
  Let U := u_val w lamb sigma mu.
  Let Y := Y_val w lamb sigma mu.
  Let t := t_val w lamb sigma mu th.
  Let Yh := yh_val w lamb sigma mu th.
  Let Y0 := (RtoC lamb / (Ci * RtoC w * RtoC mu0))%C.
  Definition g_start : C := (- RtoC 2 * (RtoC lamb / (Ci * RtoC (py_omega f) * RtoC mu0)) /
     (((RtoC lamb / (Ci * RtoC (py_omega f) * RtoC mu0)) + yh_val (py_omega f) lamb sigma mu th 0) *
      ((RtoC lamb / (Ci * RtoC (py_omega f) * RtoC mu0)) + yh_val (py_omega f) lamb sigma mu th 0)))%C.
  Definition g_at (k : nat) : C := st_g (Y_val (py_omega f) lamb sigma mu) (t_val (py_omega f) lamb sigma mu th) (yh_val (py_omega f) lamb sigma mu th) g_start k.
  Definition ds_at k := st_ds (py_omega f) (cget mu) (rget th) (u_val (py_omega f) lamb sigma mu) (Y_val (py_omega f) lamb sigma mu) (t_val (py_omega f) lamb sigma mu th) (yh_val (py_omega f) lamb sigma mu th) k (g_at k).
  Definition dh_at k := st_dh (u_val (py_omega f) lamb sigma mu) (Y_val (py_omega f) lamb sigma mu) (t_val (py_omega f) lamb sigma mu th) (yh_val (py_omega f) lamb sigma mu th) k (g_at k).
  Definition dm_at k := st_dm (py_omega f) (cget sigma) (cget mu) (rget th) (u_val (py_omega f) lamb sigma mu) (Y_val (py_omega f) lamb sigma mu) (t_val (py_omega f) lamb sigma mu th) (yh_val (py_omega f) lamb sigma mu th) k (g_at k).
  Definition gk2_last : C := (g_at (length th) / (Ci * RtoC (py_omega f) * cget mu (length th)) * RtoC (- / 2) / u_val (py_omega f) lamb sigma mu (length th))%C.
  Definition ds_last : C := (gk2_last * (- Ci * RtoC (py_omega f) * cget mu (length th)))%C.
  Definition dm_last : C := (g_at (length th) * (- yh_val (py_omega f) lamb sigma mu th (length th) / cget mu (length th)) + gk2_last * (- Ci * RtoC (py_omega f) * cget sigma (length th)))%C.

  Lemma st_g_ext Y1 t1 Yh1 Y2 t2 Yh2 g0 : forall k, (forall j, (j < k)%nat -> Y1 j = Y2 j /\ t1 j = t2 j /\ Yh1 (S j) = Yh2 (S j)) -> st_g Y1 t1 Yh1 g0 k = st_g Y2 t2 Yh2 g0 k.
  Proof.
    clear. induction k as [|k IH]; intros H; [reflexivity|]. cbn [st_g]. rewrite IH by (intros; apply H; lia).
    unfold st_next, st_bot. destruct (H k ltac:(lia)) as (-> & -> & ->). reflexivity.
  Qed.

  Lemma py_gradient_val : py_rTE_gradient mu0 f lamb sigma mu th =
    (map ds_at (seq 0 n) ++ [ds_last], map dh_at (seq 0 n), map dm_at (seq 0 n) ++ [dm_last]).
  Proof.
    unfold py_rTE_gradient. fold w n Y0.
    set (Yp := py_Yh _ _ _).
    assert (EY : forall k, (k <= n)%nat -> Yp k = Yh k).
    { intros k Hk. unfold Yp. rewrite (py_Yh_eq _ _ Y t n k); auto.
      - rewrite (py_Y_last w lamb sigma mu th) by assumption. reflexivity.
      - intros j Hj. split; [apply (py_Y_nth w lamb sigma mu th)|apply (py_t_nth w lamb sigma mu th)]; auto; fold n; lia. }
    rewrite (EY 0%nat) by lia.
    change (- RtoC 2 * Y0 / ((Y0 + Yh 0%nat) * (Y0 + Yh 0%nat)))%C with g_start.
    replace (n + 1 - 1)%nat with n by lia.
    change g_start with (st_g Y t Yp g_start 0).
    rewrite (py_sweep_eq w sigma mu th _ _ _ U Y t Yp g_start n).
    2:{ intros k Hk. repeat split; [apply (py_u_nth w lamb sigma mu th)|apply (py_Y_nth w lamb sigma mu th)|apply (py_t_nth w lamb sigma mu th)]; auto; fold n; lia. }
    2:{ lia. }
    cbn [Nat.add]. rewrite (EY n) by lia.
    assert (EG : forall k, (k <= n)%nat -> st_g Y t Yp g_start k = g_at k).
    { intros k Hk. apply st_g_ext. intros j Hj. repeat split; auto. apply EY. lia. }
    rewrite (EG n) by lia.
    rewrite (py_u_last w lamb sigma mu th) by assumption. fold n.
    rewrite (last_nth mu), (last_nth sigma), Ls, Lm. cbn [Nat.pred].
    change (nth n mu (RtoC 0)) with (cget mu n). change (nth n sigma (RtoC 0)) with (cget sigma n).
    apply (f_equal2 pair); [apply (f_equal2 pair); [apply (f_equal2 (@app C)); [|reflexivity]|]|apply (f_equal2 (@app C)); [|reflexivity]];
      apply map_ext_in; intros k Hk; apply in_seq in Hk; rewrite EG by lia.
    - unfold ds_at, st_ds, st_gk2, st_gu, st_gtanh, st_gy, st_bot. rewrite EY by lia. reflexivity.
    - unfold dh_at, st_dh, st_gtanh, st_bot. rewrite EY by lia. reflexivity.
    - unfold dm_at, st_dm, st_gk2, st_gu, st_gtanh, st_gy, st_bot. rewrite EY by lia. reflexivity.
  Qed.
End Grad.
