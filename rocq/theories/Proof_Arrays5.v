(** Array evaluation: the gravity gradient, the dipole half-space, the transient half-space dipole
    and the helpers of the dipole classes *)
From Coq Require Import String Reals List Arith Lia Lra Bool.
From Verif Require Import Vec3 Numpy Model_Utils Proof_Utils Model_Spatial Model_Static Model_Gravity Model_TDEM Model_Arrays Proof_Arrays Spec_Arrays Proof_Arrays2 Model_Arrays2 Spec_Arrays2 Proof_Arrays3 Proof_Arrays4.
Import ListNotations.
Open Scope nat_scope.

Lemma bindex_rev_app a b s t : length a = length b -> bindex_rev (a ++ s) (b ++ t) = bindex_rev a b ++ bindex_rev s t.
Proof. revert b. induction a as [|x a IH]; intros [|y b] L; try discriminate; [reflexivity|]. cbn [app bindex_rev]. rewrite IH by (cbn in L; lia). reflexivity. Qed.
Lemma bindex_app S u j w : length u = length w -> bindex (S ++ u) (j ++ w) = bindex S j ++ bindex u w.
Proof.
  intros L. unfold bindex. rewrite !rev_app_distr, bindex_rev_app by (rewrite !rev_length; exact L). apply rev_app_distr.
Qed.
Lemma bindex_suffix u j w : length u = length w -> bindex u (j ++ w) = bindex u w.
Proof. intros L. change u with ([] ++ u) at 1. rewrite bindex_app by exact L. reflexivity. Qed.
Lemma fits_app a b s : length a = length b -> fits a b -> fits (a ++ s) (b ++ s).
Proof.
  revert b. induction a as [|x a IH]; intros [|y b] L H; try discriminate; [apply fits_refl|]. inversion H; subst. cbn [app]. constructor; [assumption|]. apply IH; [cbn in L; lia|assumption].
Qed.

(** ** the gravity gradient *)
Section Tensor.
  Variable S : list nat.
  Definition T := S ++ [3; 3].
  Definition lead (ix : list nat) := firstn (length S) ix.
  Definition pq (ix : list nat) := skipn (length S) ix.
  Lemma lead_app j w : inside S j -> lead (j ++ w) = j.
  Proof. intros H. unfold lead. rewrite <- (inside_length _ _ H), firstn_app, Nat.sub_diag, firstn_all. cbn. apply app_nil_r. Qed.
  Lemma pq_app j w : inside S j -> pq (j ++ w) = w.
  Proof. intros H. unfold pq. rewrite <- (inside_length _ _ H), skipn_app, Nat.sub_diag, skipn_all. reflexivity. Qed.
  Lemma split_T ix : inside T ix -> exists j p q, ix = j ++ [p; q] /\ inside S j /\ p < 3 /\ q < 3.
  Proof.
    intros H. apply Forall2_app_inv_l in H. destruct H as (j & w & Hj & Hw & ->). inversion Hw as [|? p ? w1 Hp Hw1]; subst. inversion Hw1 as [|? q ? w2 Hq Hw2]; subst. inversion Hw2; subst.
    exists j, p, q. auto.
  Qed.
  Lemma repT_tensor {A} (a : nd A) u f (P : nat -> Prop) : shape a = S ++ u -> length u = 2 -> (forall n, P n -> n < 2 -> nth_error (rev u) n = Some 3) ->
    fits (rev u) [3; 3] ->
    (forall j p q, inside S j -> p < 3 -> q < 3 -> get a (j ++ bindex u [p; q]) = f j p q) ->
    repT T a (fun ix => f (lead ix) (nth 0 (pq ix) 0) (nth 1 (pq ix) 0)) (fun n => P n \/ 2 <= n).
  Proof.
    intros E L HP Fu H. unfold repT, T. rewrite E, !rev_app_distr. split; [|split].
    - apply fits_app; [rewrite rev_length, L; reflexivity|exact Fu].
    - intros n Hn _. destruct (le_lt_dec 2 n) as [Hn2|Hn2].
      + rewrite !nth_error_app2 by (rewrite ?rev_length, ?L; cbn; lia). rewrite !rev_length, L. reflexivity.
      + rewrite !nth_error_app1 by (rewrite ?rev_length, ?L; cbn; lia). rewrite HP by (destruct Hn; [assumption|lia]). destruct n as [|[|n]]; [reflexivity..|lia].
    - intros ix Hi. destruct (split_T ix Hi) as (j & p & q & -> & Hj & Hp & Hq).
      rewrite bindex_app by exact L. rewrite bindex_self by exact Hj. rewrite lead_app, pq_app by exact Hj. cbn [nth]. apply H; assumption.
  Qed.
  Lemma repT_eye : repT T eye3 (fun ix => if Nat.eqb (nth 0 (pq ix) 0) (nth 1 (pq ix) 0) then 1%R else 0%R) (fun n => False).
  Proof.
    unfold repT, T. cbn [shape eye3]. rewrite rev_app_distr. split; [|split].
    - cbn [rev app]. constructor; [auto|]. constructor; [auto|]. constructor.
    - intros n [].
    - intros ix Hi. destruct (split_T ix Hi) as (j & p & q & -> & Hj & Hp & Hq). rewrite bindex_suffix by reflexivity. rewrite pq_app by exact Hj. reflexivity.
  Qed.
End Tensor.
Lemma two_snocs {A} (j : list A) p q : j ++ [p; q] = (j ++ [p]) ++ [q].
Proof. rewrite <- app_assoc. reflexivity. Qed.
Lemma pm_T_matrices s S a : shape a = S ++ [3] ->
  one_matrix_per_point (pm_gradient s) a (pm_gradient_array s (XyzArray a)).
Proof.
  intros E. unfold one_matrix_per_point, pm_gradient_array. rewrite E, removelast_snoc. destruct (check_points S a E) as [-> P]. cbn [rbind].
  prestep (@nil nat) S. prestep (@nil nat) S. destruct K as [Ev Hv]. destruct K0 as [Eh Hh].
  set (h := fun j => vdiv (vsub (vec_at a j) (pm_loc s)) (vnorm (vsub (vec_at a j) (pm_loc s)))).
  assert (Hc : forall j c, inside S j -> c < 3 -> get rh (j ++ [c]) = component (h j) c) by (intros j c Hj Hc; rewrite <- (comp_vec_at rh j c Hc), (Hh j Hj); reflexivity).
  destruct (repT_bop (T S) (fun a b => (3 * a * b)%R) (newaxis rh) (newaxis_before_last rh) _ _ _ _
    (repT_tensor S (newaxis rh) [3; 1] (fun j p q => component (h j) p) (fun n => n = 1)
       ltac:(unfold newaxis; cbn [shape]; rewrite Eh, <- app_assoc; reflexivity) eq_refl ltac:(intros n -> _; reflexivity)
       ltac:(cbn; constructor; [auto|]; constructor; [auto|]; constructor)
       ltac:(intros j p q Hj Hp Hq; unfold newaxis; cbn [get]; change (bindex [3; 1] [p; q]) with [p; 0]; rewrite two_snocs, removelast_snoc; apply Hc; assumption))
    (repT_tensor S (newaxis_before_last rh) [1; 3] (fun j p q => component (h j) q) (fun n => n = 0)
       ltac:(unfold newaxis_before_last; cbn [shape]; rewrite Eh, removelast_snoc, last_last; reflexivity) eq_refl ltac:(intros n -> _; reflexivity)
       ltac:(cbn; constructor; [auto|]; constructor; [auto|]; constructor)
       ltac:(intros j p q Hj Hp Hq; unfold newaxis_before_last; cbn [get]; change (bindex [1; 3] [p; q]) with [0; q]; rewrite two_snocs, !removelast_snoc, last_last; apply Hc; assumption)))
    as (o & -> & Ro). cbn [rbind].
  destruct (repT_bop (T S) Rminus eye3 o _ _ _ _ (repT_eye S) Ro) as (t & -> & Rt). cbn [rbind].
  destruct (repT_bop (T S) (fun t r => (- G_newton * pm_mass s * t / r ^ 3)%R) t (newaxis (norm_keep rv)) _ _ _ _ Rt
    (repT_tensor S (newaxis (norm_keep rv)) [1; 1] (fun j p q => vnorm (vsub (vec_at a j) (pm_loc s))) (fun n => False)
       ltac:(unfold newaxis, norm_keep; cbn [shape]; rewrite Ev, removelast_snoc, <- app_assoc; reflexivity) eq_refl ltac:(intros n [] _)
       ltac:(cbn; constructor; [auto|]; constructor; [auto|]; constructor)
       ltac:(intros j p q Hj Hp Hq; unfold newaxis, norm_keep; cbn [get]; change (bindex [1; 1] [p; q]) with [0; 0]; rewrite two_snocs, !removelast_snoc, (Hv j Hj); reflexivity)))
    as (e & -> & Re).
  destruct (repT_exact (T S) e _ _ Re) as [Ee He].
  { intros n L. unfold T in L. cbv beta. lia. }
  exists e. split; [reflexivity|]. split; [rewrite Ee; unfold T; rewrite <- app_assoc; reflexivity|].
  intros j p q Hj Hp Hq. rewrite He by (unfold T; apply Forall2_app; [exact Hj|]; constructor; [exact Hp|]; constructor; [exact Hq|constructor]).
  rewrite lead_app, pq_app by exact Hj. cbn [nth]. unfold h, vdiv.
  destruct p as [|[|[|p]]]; [..|lia]; (destruct q as [|[|[|q]]]; [..|lia]); reflexivity.
Qed.

(** ** broadcasting two arrays of points *)
Lemma bshape_inside s t u ix : bshape s t = Some u -> inside u ix -> inside s (bindex s ix) /\ inside t (bindex t ix).
Proof.
  unfold bshape. intros E H.
  assert (K : forall s t u ix, bshape_rev s t = Some u -> inside u ix -> inside s (bindex_rev s ix) /\ inside t (bindex_rev t ix)).
  { clear. induction s as [|a s IH]; intros [|b t] u ix E H; cbn [bshape_rev] in E.
    - injection E as <-. inversion H; subst. split; constructor.
    - injection E as <-. split; [constructor|]. rewrite <- (app_nil_r ix). rewrite bindex_rev_id by exact H. exact H.
    - injection E as <-. split; [|constructor]. rewrite <- (app_nil_r ix). rewrite bindex_rev_id by exact H. exact H.
    - destruct (bshape_rev s t) as [u'|] eqn:E'; [|discriminate].
      assert (K : exists c, u = c :: u' /\ (a = c \/ a = 1) /\ (b = c \/ b = 1)).
      { destruct (Nat.eqb_spec a b); [injection E as <-; exists a; auto|]. destruct (Nat.eqb_spec a 1); [injection E as <-; exists b; auto|].
        destruct (Nat.eqb_spec b 1); [injection E as <-; exists a; auto|discriminate]. }
      destruct K as (c & -> & Ha & Hb). inversion H as [|? i ? ix' Hi H']; subst. destruct (IH t u' ix' E' H') as [I1 I2]. cbn [bindex_rev]. split; constructor; try assumption.
      + destruct (Nat.eqb_spec a 1); [lia|]. destruct Ha; [subst; assumption|lia].
      + destruct (Nat.eqb_spec b 1); [lia|]. destruct Hb; [subst; assumption|lia]. }
  destruct (bshape_rev (rev s) (rev t)) as [u'|] eqn:E'; [|discriminate]. cbn in E. injection E as <-.
  apply inside_rev in H. rewrite rev_involutive in H. destruct (K _ _ _ _ E' H) as [K1 K2]. unfold bindex.
  apply inside_rev in K1, K2. rewrite rev_involutive in K1, K2. split; assumption.
Qed.
Lemma bshape_snoc s t : bshape (s ++ [3]) (t ++ [3]) = option_map (fun u => u ++ [3]) (bshape s t).
Proof.
  unfold bshape. rewrite !rev_app_distr. cbn [rev app bshape_rev]. destruct (bshape_rev (rev s) (rev t)); reflexivity.
Qed.

Lemma dh_V_none s S m : shape m = S ++ [3] -> (forall j, index_of S j -> (vz (vec_at m j) <= 0)%R) ->
  exists e, dh_V_array s (XyzArray m) None = Ok e /\ scalars_of S e (fun j => dh_V s (vec_at m j)).
Proof.
  intros E N. unfold dh_V_array, dh_array. destruct (check_points S m E) as [-> P]. cbn [rbind]. pose proof (above_false S m E N) as NA. rewrite NA.
  destruct (hs_V_scalars (dh_sa s) S m E NA) as (a & -> & Ha). destruct (hs_V_scalars (dh_sb s) S m E NA) as (b & -> & Hb). cbn [rbind]. sbop S.
  eexists. split; [reflexivity|]. eassumption.
Qed.
Lemma dh_E_none s S m : shape m = S ++ [3] -> (forall j, index_of S j -> (vz (vec_at m j) <= 0)%R) ->
  exists e, dh_E_array s (XyzArray m) None = Ok e /\ points_of S e (fun j => dh_E s (vec_at m j)).
Proof.
  intros E N. unfold dh_E_array, dh_array. destruct (check_points S m E) as [-> P]. cbn [rbind]. pose proof (above_false S m E N) as NA. rewrite NA.
  destruct (hs_E_points (dh_sa s) S m E NA) as (a & -> & Ha). destruct (hs_E_points (dh_sb s) S m E NA) as (b & -> & Hb). cbn [rbind].
  destruct (add_points S a b _ _ Ha Hb Rminus vsub minus_op) as (r & -> & Hr). cbn [rbind]. eexists. split; [reflexivity|]. exact Hr.
Qed.
Lemma dh_V_some s Sm Sn m n : shape m = Sm ++ [3] -> shape n = Sn ++ [3] ->
  (forall j, index_of Sm j -> (vz (vec_at m j) <= 0)%R) -> (forall j, index_of Sn j -> (vz (vec_at n j) <= 0)%R) ->
  match bshape Sm Sn with
  | None => dh_V_array s (XyzArray m) (Some (XyzArray n)) = Raise ValueError
  | Some u => exists e, dh_V_array s (XyzArray m) (Some (XyzArray n)) = Ok e /\ shape e = u /\
      forall ix, index_of u ix -> get e ix = (dh_V s (vec_at m (bindex Sm ix)) - dh_V s (vec_at n (bindex Sn ix)))%R
  end.
Proof.
  intros Em En Nm Nn. unfold dh_V_array, dh_array. destruct (check_points Sm m Em) as [-> Pm]. cbn [rbind]. pose proof (above_false Sm m Em Nm) as NAm. rewrite NAm.
  destruct (check_points Sn n En) as [-> Pn]. cbn [rbind]. pose proof (above_false Sn n En Nn) as NAn. rewrite NAn. cbn [rbind].
  destruct (hs_V_scalars (dh_sa s) Sm m Em NAm) as (a & -> & Ha). destruct (hs_V_scalars (dh_sb s) Sm m Em NAm) as (b & -> & Hb). cbn [rbind].
  destruct (bop_scalars Rminus Sm a b _ _ Ha Hb) as (vm & -> & [Evm Hvm]). cbn [rbind].
  destruct (hs_V_scalars (dh_sa s) Sn n En NAn) as (a' & -> & Ha'). destruct (hs_V_scalars (dh_sb s) Sn n En NAn) as (b' & -> & Hb'). cbn [rbind].
  destruct (bop_scalars Rminus Sn a' b' _ _ Ha' Hb') as (vn & -> & [Evn Hvn]). cbn [rbind].
  unfold broadcast_op. rewrite Evm, Evn. destruct (bshape Sm Sn) as [u|] eqn:Eu; [|reflexivity]. eexists. split; [reflexivity|]. split; [reflexivity|].
  intros ix Hi. destruct (bshape_inside _ _ _ _ Eu Hi) as [I1 I2]. cbn [get]. rewrite Hvm, Hvn by assumption. reflexivity.
Qed.
Lemma dh_E_some s Sm Sn m n : shape m = Sm ++ [3] -> shape n = Sn ++ [3] ->
  (forall j, index_of Sm j -> (vz (vec_at m j) <= 0)%R) -> (forall j, index_of Sn j -> (vz (vec_at n j) <= 0)%R) ->
  match bshape Sm Sn with
  | None => dh_E_array s (XyzArray m) (Some (XyzArray n)) = Raise ValueError
  | Some u => exists e, dh_E_array s (XyzArray m) (Some (XyzArray n)) = Ok e /\ shape e = u ++ [3] /\
      forall ix, index_of u ix -> vec_at e ix = vsub (dh_E s (vec_at m (bindex Sm ix))) (dh_E s (vec_at n (bindex Sn ix)))
  end.
Proof.
  intros Em En Nm Nn. unfold dh_E_array, dh_array. destruct (check_points Sm m Em) as [-> Pm]. cbn [rbind]. pose proof (above_false Sm m Em Nm) as NAm. rewrite NAm.
  destruct (check_points Sn n En) as [-> Pn]. cbn [rbind]. pose proof (above_false Sn n En Nn) as NAn. rewrite NAn. cbn [rbind].
  destruct (hs_E_points (dh_sa s) Sm m Em NAm) as (a & -> & Ha). destruct (hs_E_points (dh_sb s) Sm m Em NAm) as (b & -> & Hb). cbn [rbind].
  destruct (add_points Sm a b _ _ Ha Hb Rminus vsub minus_op) as (vm & -> & [Evm Hvm]). cbn [rbind].
  destruct (hs_E_points (dh_sa s) Sn n En NAn) as (a' & -> & Ha'). destruct (hs_E_points (dh_sb s) Sn n En NAn) as (b' & -> & Hb'). cbn [rbind].
  destruct (add_points Sn a' b' _ _ Ha' Hb' Rminus vsub minus_op) as (vn & -> & [Evn Hvn]). cbn [rbind].
  unfold broadcast_op. rewrite Evm, Evn, bshape_snoc. destruct (bshape Sm Sn) as [u|] eqn:Eu; cbn [option_map]; [|reflexivity]. eexists. split; [reflexivity|]. split; [reflexivity|].
  intros ix Hi. destruct (bshape_inside _ _ _ _ Eu Hi) as [I1 I2]. unfold vec_at at 1. cbn [get]. rewrite !bindex_app by reflexivity.
  change (bindex [3] [0]) with [0]. change (bindex [3] [1]) with [1]. change (bindex [3] [2]) with [2].
  rewrite <- !comp_vec_at by lia. rewrite Hvm, Hvn by assumption. apply vec3_eq; reflexivity.
Qed.
