(** rTE_forward: compiled = numpy *)
From Coq Require Import Reals List ZArith Bool Lia Lra.
From Coquelicot Require Import Coquelicot.
From Verif Require Import Cplx Numpy Model_RTE Proof_RTE.
Import ListNotations.
Open Scope Z_scope.

(** value of the recursion at layer k, by the layer index *)
Section Down.
  Variables (Y t : nat -> C).
  Fixpoint down (m k : nat) (b : C) : C :=
    match m with O => b | S m' => let y := down m' (S k) b in (Y k * (y + Y k * t k) / (Y k + y * t k))%C end.
  Lemma down_S m k b : down (S m) k b = (Y k * (down m (S k) b + Y k * t k) / (Y k + down m (S k) b * t k))%C.
  Proof. reflexivity. Qed.
End Down.

Lemma py_down_eq (Ya ta : list C) (Y t : nat -> C) n : (forall k, (k < n)%nat -> cget Ya k = Y k /\ cget ta k = t k) ->
  forall k b, (k <= n)%nat -> py_down Ya ta k (down Y t (n - k) k b) = down Y t n 0 b.
Proof.
  intros H; induction k as [|k IH]; intros b Hk; cbn [py_down].
  - rewrite Nat.sub_0_r; reflexivity.
  - destruct (H k Hk) as [-> ->]. rewrite <- (down_S Y t (n - S k) k b).
    replace (S (n - S k)) with (n - k)%nat by lia. apply IH; lia.
Qed.

Section Fwd.
  Variables (w lamb : R) (sigma mu : list C) (th : list R).
  Let n := length th.
  Hypothesis Ls : length sigma = S n.
  Hypothesis Lm : length mu = S n.
  Let U := u_val w lamb sigma mu.
  Let Y := Y_val w lamb sigma mu.
  Let t := t_val w lamb sigma mu th.
  Definition yh_val (k : nat) : C := down (Y_val w lamb sigma mu) (t_val w lamb sigma mu th) (length th - k) k (Y_val w lamb sigma mu (length th)).
  Lemma yh_val_last : yh_val n = Y n.
  Proof. clear Ls Lm. unfold yh_val. fold n. rewrite Nat.sub_diag. reflexivity. Qed.
  Lemma yh_val_step k : (k < n)%nat -> yh_val k = (Y k * (yh_val (S k) + Y k * t k) / (Y k + yh_val (S k) * t k))%C.
  Proof. clear Ls Lm. intros H. unfold yh_val. fold n. replace (n - k)%nat with (S (n - S k)) by lia. apply down_S. Qed.
  Lemma py_down_val : py_down (py_Y w lamb sigma mu) (py_tanh w lamb sigma mu th) n (last (py_Y w lamb sigma mu) (RtoC 0)) = yh_val 0.
  Proof.
    rewrite (py_Y_last w lamb sigma mu th) by assumption. fold n.
    pose proof (py_down_eq (py_Y w lamb sigma mu) (py_tanh w lamb sigma mu th) Y t n) as E.
    specialize (E ltac:(intros k Hk; split; [apply (py_Y_nth w lamb sigma mu th); fold n; auto; lia | apply (py_t_nth w lamb sigma mu th); auto]) n (Y n) (le_n n)).
    rewrite Nat.sub_diag in E. cbn [down] in E. etransitivity; [exact E|]. unfold yh_val. fold n. rewrite Nat.sub_0_r. reflexivity.
  Qed.
End Fwd.

Lemma py_rTE_val mu0 f lamb sigma mu th : length sigma = S (length th) -> length mu = S (length th) ->
  py_rTE mu0 f lamb sigma mu th =
  let Y0 := (RtoC lamb / (Ci * RtoC (py_omega f) * RtoC mu0))%C in
  let Yh := yh_val (py_omega f) lamb sigma mu th 0 in ((Y0 - Yh) / (Y0 + Yh))%C.
Proof.
  intros Ls Lm. unfold py_rTE. replace (length th + 1 - 1)%nat with (length th) by lia.
  rewrite py_down_val by assumption. reflexivity.
Qed.

Lemma nth_error_rget h k : (k < length h)%nat -> nth_error h k = Some (rget h k).
Proof. intros H. unfold rget. apply nth_error_nth'. assumption. Qed.

Lemma of_nat_add a b : Z.of_nat a + Z.of_nat b = Z.of_nat (a + b).
Proof. lia. Qed.

Section Mem.
  Variables (sigma mu : arr2) (th : list R) (f : nat).
  Let n := length th.
  Hypothesis Rs : a_rows sigma = S n.
  Hypothesis Rm : a_rows mu = S n.
  Hypothesis Cm : a_cols mu = a_cols sigma.
  Hypothesis Hf : (f < a_cols sigma)%nat.
  Lemma rd_sigma k : (k <= n)%nat -> rd (flat_F sigma) (Z.of_nat (f * S n) + Z.of_nat k) = Some (cget (column sigma f) k).
  Proof. intros H. rewrite of_nat_add, rd_nat, <- Rs. apply flat_F_nth; lia. Qed.
  Lemma rd_mu k : (k <= n)%nat -> rd (flat_F mu) (Z.of_nat (f * S n) + Z.of_nat k) = Some (cget (column mu f) k).
  Proof. intros H. rewrite of_nat_add, rd_nat, <- Rm. apply flat_F_nth; lia. Qed.

  Lemma cpp_layers_ok fuel w lamb b : (n <= fuel)%nat -> Z.of_nat (S n) < size_max ->
    b = yh_val w lamb (column sigma f) (column mu f) th n ->
    cpp_layers fuel w (lamb * lamb) (flat_F sigma) (flat_F mu) (Z.of_nat (f * S n)) th (Z.of_nat (S n)) b
    = Some (yh_val w lamb (column sigma f) (column mu f) th 0).
  Proof.
    intros Hfu Hsz Hb. unfold cpp_layers.
    destruct (c_for_down (fun k y => y = yh_val w lamb (column sigma f) (column mu f) th k) n fuel
      (fun k Yh =>
         ask mu_c <- rd (flat_F mu) (Z.of_nat (f * S n) + k);
         ask sg <- rd (flat_F sigma) (Z.of_nat (f * S n) + k);
         ask hk <- rd th k;
         let k2 := (- Ci * RtoC w * mu_c * sg)%C in
         let u := csqrt (RtoC (lamb * lamb) - k2)%C in
         let Y := (u / (Ci * RtoC w * mu_c))%C in
         let tanhuh := ctanh (u * RtoC hk)%C in
         Some (Y * (Yh + Y * tanhuh) / (Y + Yh * tanhuh))%C) b Hfu Hsz Hb) as (y & E & ->).
    - intros k y Hk ->. rewrite rd_mu, rd_sigma by lia. rewrite rd_nat, nth_error_rget by assumption.
      eexists; split; [reflexivity|]. symmetry. apply yh_val_step. exact Hk.
    - exact E.
  Qed.
End Mem.

Lemma C18_forward_lemma fuel frequencies lamb sigma mu th :
  a_cols sigma = length frequencies -> a_rows sigma = (length th + 1)%nat -> a_rows mu = a_rows sigma -> a_cols mu = a_cols sigma ->
  frequencies <> [] -> lamb <> [] ->
  Z.of_nat (length frequencies * a_rows sigma) < 2 ^ 64 -> Z.of_nat (length frequencies * length lamb) < 2 ^ 64 ->
  (a_rows sigma + length frequencies + length lamb <= fuel)%nat ->
  exists out, pyx_rTE_forward fuel frequencies lamb sigma mu th = Ok (Some out) /\
    length out = (length frequencies * length lamb)%nat /\
    forall f i, (f < length frequencies)%nat -> (i < length lamb)%nat ->
      from_F (length frequencies) (length lamb) out f i = Some (py_rTE cpp_mu_0 (rget frequencies f) (rget lamb i) (column sigma f) (column mu f) th).
Proof.
  intros Cs Rs Rm Cm Nf Nl S1 S2 Hfu.
  set (nf := length frequencies) in *. set (nl := length lamb) in *. set (n := length th) in *.
  assert (Pf : (0 < nf)%nat) by (destruct frequencies; [congruence|cbn in nf; lia]).
  assert (Pl : (0 < nl)%nat) by (destruct lamb; [congruence|cbn in nl; lia]).
  replace (n + 1)%nat with (S n) in Rs by lia. rewrite Rs in Rm. rewrite Rs in S1, Hfu.
  change (2 ^ 64) with size_max in *.
  assert (S0 : Z.of_nat (S n) < size_max) by nia.
  unfold pyx_rTE_forward. fold nf nl n. rewrite Cs, Rs, Rm, Cm, Cs, !Nat.eqb_refl. cbn [negb andb].
  replace (S n =? n + 1)%nat with true by (symmetry; apply Nat.eqb_eq; lia). cbn [negb].
  replace (nf =? 0)%nat with false by (symmetry; apply Nat.eqb_neq; lia).
  replace (nl =? 0)%nat with false by (symmetry; apply Nat.eqb_neq; lia). cbn [orb].
  set (v := fun c => py_rTE cpp_mu_0 (rget frequencies (c mod nf)) (rget lamb (c / nf)) (column sigma (c mod nf)) (column mu (c mod nf)) th).
  assert (Q : exists out, cpp_rTE fuel (repeat None (nf * nl)) frequencies lamb (flat_F sigma) (flat_F mu) th (Z.of_nat nf) (Z.of_nat nl) (Z.of_nat (S n)) = Some out /\ written (nf * nl) (nf * nl) v out).
  { unfold cpp_rTE.
    match goal with |- context [c_for fuel 0 (fun i => i <? Z.of_nat nl) incr ?b ?s] => set (body := b); set (st0 := s) end.
    destruct (c_for_up (fun i (st : list (option C) * Z) => written (nf * nl) (i * nf) v (fst st) /\ snd st = Z.of_nat (i * nf)) nl fuel body st0) as ((out & z) & E & W & Z1).
    - lia.
    - nia.
    - cbn. split; [apply written_0|reflexivity].
    - intros i [buf c] Hi [W1 W2]. cbn in W1, W2. subst c. unfold body.
      rewrite rd_nat. unfold nl in Hi. rewrite nth_error_rget by assumption. fold nl in Hi.
      match goal with |- context [c_for fuel 0 (fun i => i <? Z.of_nat nf) incr ?b ?s] => set (body2 := b); set (st1 := s) end.
      destruct (c_for_up (fun j (st : list (option C) * Z) => written (nf * nl) (i * nf + j) v (fst st) /\ snd st = Z.of_nat (i * nf + j)) nf fuel body2 st1) as ((out & z) & E & W & Z1).
      + lia.
      + nia.
      + cbn. rewrite Nat.add_0_r. split; [assumption|reflexivity].
      + intros j [buf2 c] Hj [V1 V2]. cbn in V1, V2. subst c. unfold body2.
        replace (wrap (Z.of_nat j * Z.of_nat (S n))) with (Z.of_nat (j * S n)) by (rewrite wrap_small; nia).
        replace (wrap (Z.of_nat (S n) - 1)) with (Z.of_nat n) by (rewrite wrap_small; lia).
        rewrite rd_nat. unfold nf in Hj. rewrite nth_error_rget by assumption. fold nf in Hj.
        rewrite (rd_mu sigma mu th j), (rd_sigma sigma mu th j) by (fold n; lia).
        rewrite (cpp_layers_ok sigma mu th j); try (fold n; lia); [|symmetry; apply yh_val_last].
        assert (Hc : (i * nf + j < nf * nl)%nat) by nia.
        assert (M1 : ((i * nf + j) mod nf)%nat = j) by (rewrite Nat.add_comm, Nat.mod_add by lia; apply Nat.mod_small; lia).
        assert (M2 : ((i * nf + j) / nf)%nat = i) by (rewrite Nat.add_comm, Nat.div_add by lia; rewrite Nat.div_small by lia; lia).
        match goal with |- context [wr_once buf2 _ ?x] => destruct (written_S _ _ v _ x V1 Hc) as (buf3 & E3 & W3) end.
        { unfold v. rewrite M1, M2. rewrite py_rTE_val by (rewrite column_length; fold n; lia). reflexivity. }
        rewrite E3. eexists; split; [reflexivity|]. cbn [fst snd]. rewrite Nat.add_succ_r. split; [assumption|].
        unfold incr. rewrite wrap_small by nia. lia.
      + exists (out, z). split; [exact E|]. replace (S i * nf)%nat with (i * nf + nf)%nat by lia. split; assumption.
    - cbn [fst snd] in W. exists out. rewrite E. split; [reflexivity|]. replace (nl * nf)%nat with (nf * nl)%nat in W by lia. assumption. }
  destruct Q as (out & E & W). exists out. rewrite E. split; [reflexivity|]. split; [apply W|].
  intros f i Hf Hi. unfold from_F. rewrite (written_nth (nf * nl) v) by (auto; nia). unfold v.
  assert (M1 : ((f + nf * i) mod nf)%nat = f) by (rewrite Nat.mul_comm, Nat.mod_add by lia; apply Nat.mod_small; lia).
  assert (M2 : ((f + nf * i) / nf)%nat = i) by (rewrite Nat.mul_comm, Nat.div_add by lia; rewrite Nat.div_small by lia; lia).
  rewrite M1, M2. reflexivity.
Qed.
