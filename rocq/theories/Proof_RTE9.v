(** rTE_gradient is the derivative of rTE_forward *)
From Coq Require Import Reals List Lia Lra.
From Coquelicot Require Import Coquelicot.
From Verif Require Import Calculus Cplx Deriv Proof_FDEM Numpy Model_RTE Proof_RTE Proof_RTE2 Proof_RTE3 Proof_RTE6 Proof_RTE7 Proof_RTE8 Spec_RTE.
Import ListNotations.
Open Scope R_scope.

Lemma CD_div f g x a b : is_cderive f x a -> is_cderive g x b -> g x <> RtoC 0 ->
  is_cderive (fun t => f t / g t)%C x ((a * g x - f x * b) / (g x * g x))%C.
Proof.
  intros A B N. eapply is_cderive_eq.
  - unfold Cdiv. apply CD_mult; [exact A|apply CD_inv; [exact B|exact N]].
  - cbv beta. revert N. generalize (f x) (g x). intros p q N. field. exact N.
Qed.

Lemma is_cderive_continuous f x a : is_cderive f x a -> continuous (fun t => Re (f t)) x /\ continuous (fun t => Im (f t)) x.
Proof. intros [A B]. split; [apply (ex_derive_continuous (V := R_NormedModule)); eexists; exact A|apply (ex_derive_continuous (V := R_NormedModule)); eexists; exact B]. Qed.

(** the principal root is differentiable off (-infinity, 0] *)
Lemma CD_csqrt f x a : is_cderive f x a -> 0 < Cmod (f x) + Re (f x) ->
  is_cderive (fun t => csqrt (f t)) x (a / (RtoC 2 * csqrt (f x)))%C.
Proof.
  intros [D1 D2] P.
  assert (Pm : 0 < Cmod (f x)).
  { destruct (Req_dec (Cmod (f x)) 0) as [E|E]; [|pose proof (Cmod_ge_0 (f x)); lra]. rewrite E in P.
    pose proof (abs_re_le (f x)). rewrite E in H. pose proof (Rabs_pos (Re (f x))). pose proof (Rle_abs (Re (f x))). lra. }
  set (c := fun t => Cmod (f t)).
  assert (Ec : forall t, c t = sqrt (Re (f t) * Re (f t) + Im (f t) * Im (f t))).
  { intros t. unfold c. rewrite <- Cmod_sqr. symmetry. apply sqrt_square. apply Cmod_ge_0. }
  assert (Dc : exists l, is_derive c x l).
  { eexists. eapply (is_derive_ext (K := R_AbsRing) (V := R_NormedModule) (fun t => sqrt (Re (f t) * Re (f t) + Im (f t) * Im (f t)))); [intros; symmetry; apply Ec|].
    apply D_sqrt; [apply D_plus; apply D_mult; eassumption|].
    rewrite <- Cmod_sqr. apply Rmult_lt_0_compat; assumption. }
  destruct Dc as [l Dc].
  set (p := fun t => sqrt ((c t + Re (f t)) / 2)).
  assert (Dp : exists q, is_derive p x q).
  { eexists. unfold p. apply D_sqrt.
    - unfold Rdiv. apply D_mult; [apply D_plus; eassumption|apply D_const].
    - unfold c. lra. }
  destruct Dp as [q Dp].
  assert (Pp : 0 < p x) by (apply sqrt_lt_R0; unfold c; lra).
  assert (Dq : exists r, is_derive (fun t => Im (f t) / (2 * p t)) x r).
  { eexists. unfold Rdiv. apply D_mult; [exact D2|]. apply D_inv; [apply D_mult; [apply D_const|exact Dp]|lra]. }
  destruct Dq as [r Dq].
  assert (Lp : locally x (fun t => 0 < p t)).
  { assert (Cp : continuous p x) by (apply (ex_derive_continuous (V := R_NormedModule)); eexists; exact Dp).
    apply (Cp (fun y => 0 < y)). apply (open_gt 0). exact Pp. }
  assert (DD : is_cderive (fun t => csqrt (f t)) x (q, r)).
  { split; [exact Dp|].
    apply (is_derive_ext_loc (fun t => Im (f t) / (2 * p t))); [|exact Dq].
    revert Lp. apply filter_imp. intros t Ht.
    pose proof (f_equal Im (csqrt_sq (f t))) as E. rewrite Im_mult in E.
    change (Re (csqrt (f t))) with (p t) in E.
    apply (Rmult_eq_reg_l (2 * p t)); [|lra]. rewrite <- E. field. lra. }
  assert (DD' : exists z : C, is_cderive (fun t => csqrt (f t)) x z) by (exists (q, r); exact DD). destruct DD' as [z DZ].
  assert (N : csqrt (f x) <> RtoC 0).
  { intros E. apply (f_equal Re) in E. change (Re (csqrt (f x))) with (p x) in E. rewrite E in Pp. cbn in Pp. lra. }
  assert (E : (z * csqrt (f x) + csqrt (f x) * z)%C = a).
  { apply (is_cderive_unique f x); [|split; assumption].
    apply (is_cderive_ext (fun t => csqrt (f t) * csqrt (f t))%C); [intros; apply csqrt_sq|].
    apply CD_mult; exact DZ. }
  apply is_cderive_eq with z; [exact DZ|].
  rewrite <- E. replace (RtoC 2) with (RtoC 1 + RtoC 1)%C by (apply C_eq; cbn; ring).
  field. split; [exact N|]. intros K. apply (f_equal Re) in K. cbn in K. lra.
Qed.

Lemma CD_tanh f x a : is_cderive f x a -> twice_cosh (f x) <> RtoC 0 ->
  is_cderive (fun t => ctanh (f t)) x (a * (RtoC 1 - ctanh (f x) * ctanh (f x)))%C.
Proof.
  intros D N. rewrite ctanh_eq. eapply is_cderive_eq.
  - unfold ctanh. apply CD_div.
    + apply CD_minus; apply CD_exp; [exact D|apply CD_opp; exact D].
    + apply CD_plus; apply CD_exp; [exact D|apply CD_opp; exact D].
    + exact N.
  - unfold twice_sinh. fold (twice_cosh (f x)). unfold twice_cosh in *. field. exact N.
Qed.

Fixpoint sumf (f : nat -> C) (m k : nat) : C := match m with O => RtoC 0 | S m' => (f k + sumf f m' (S k))%C end.
Lemma csum2_last f l g : forall m k sd, length sd = S m -> (forall j, (j <= m)%nat -> cget sd j = g (k + j)%nat) ->
  csum2 (map f (seq k m) ++ [l]) sd = (sumf (fun j => f j * g j) m k + l * g (k + m)%nat)%C.
Proof.
  induction m as [|m IH]; intros k sd L H.
  - destruct sd as [|a [|b sd]]; cbn in L; try lia. cbn [seq map app csum2 sumf]. specialize (H 0%nat ltac:(lia)). cbn in H. rewrite H. ring.
  - destruct sd as [|a sd]; cbn in L; [lia|]. cbn [seq map app csum2 sumf].
    rewrite (IH (S k) sd) by (try lia; intros j Hj; specialize (H (S j) ltac:(lia)); cbn [cget nth] in H; unfold cget in *; cbn in H; rewrite H; f_equal; lia).
    specialize (H 0%nat ltac:(lia)). cbn in H. rewrite Nat.add_0_r in H. rewrite H. replace (S k + m)%nat with (k + S m)%nat by lia. ring.
Qed.
Lemma csum2_seq f g : forall m k sd, length sd = m -> (forall j, (j < m)%nat -> cget sd j = g (k + j)%nat) ->
  csum2 (map f (seq k m)) sd = sumf (fun j => f j * g j)%C m k.
Proof.
  induction m as [|m IH]; intros k sd L H.
  - reflexivity.
  - destruct sd as [|a sd]; cbn in L; [lia|]. cbn [seq map app csum2 sumf].
    rewrite (IH (S k) sd) by (try lia; intros j Hj; specialize (H (S j) ltac:(lia)); unfold cget in *; cbn in H; rewrite H; f_equal; lia).
    specialize (H 0%nat ltac:(lia)). cbn in H. rewrite Nat.add_0_r in H. rewrite H. reflexivity.
Qed.
Lemma sumf_plus f g m : forall k, sumf (fun j => f j + g j)%C m k = (sumf f m k + sumf g m k)%C.
Proof. induction m as [|m IH]; intros k; cbn [sumf]; [ring|rewrite IH; ring]. Qed.

(** algebra of one step *)
Lemma step_alg (Y y t Y' y' T' g : C) : (Y + y * t)%C <> RtoC 0 ->
  (g * (((Y' * (y + Y * t) + Y * (y' + (Y' * t + Y * T'))) * (Y + y * t) - Y * (y + Y * t) * (Y' + (y' * t + y * T'))) / ((Y + y * t) * (Y + y * t)))
   = g * t * (RtoC 2 * t * Y * y + Y * Y + y * y) / ((Y + y * t) * (Y + y * t)) * Y'
     + g * (Y * Y * Y - Y * y * y) / ((Y + y * t) * (Y + y * t)) * T'
     + g * - (t * t - RtoC 1) * Y * Y / ((Y + y * t) * (Y + y * t)) * y')%C.
Proof.
  intros N. replace (RtoC 2) with (RtoC 1 + RtoC 1)%C by (apply C_eq; cbn; ring). field. exact N.
Qed.

Lemma half_eq : RtoC (- / 2) = (- / RtoC 2)%C.
Proof. rewrite RtoC_opp, RtoC_inv by lra. reflexivity. Qed.

Lemma layer_alg (iw s m u Y h s' m' h' T gy gt : C) : iw <> RtoC 0 -> m <> RtoC 0 -> u <> RtoC 0 -> Y = (u / (iw * m))%C ->
  let u' := (iw * (m' * s + m * s') / (RtoC 2 * u))%C in
  let gu := (gt * h * T + gy / (iw * m))%C in
  let gk2 := (gu * RtoC (- / 2) / u)%C in
  (gy * ((u' * (iw * m) - u * (iw * m')) / ((iw * m) * (iw * m))) + gt * ((u' * h + u * h') * T)
   = gk2 * (- iw * m) * s' + (gt * u * T) * h' + (gy * (- Y / m) - gk2 * (iw * s)) * m')%C.
Proof.
  intros N1 N2 N3 ->. cbv zeta. rewrite half_eq. pose proof C2_neq as T2. field. repeat split; assumption.
Qed.

Section Curve.
  Variables (mu0 f lamb : R) (sigma mu : R -> list C) (th : R -> list R) (x : R) (sd md : list C) (hd : list R).
  Let w := py_omega f.
  Let n := length hd.
  Hypothesis Cs : is_curve sigma x sd.
  Hypothesis Cm : is_curve mu x md.
  Hypothesis Ch : is_rcurve th x hd.
  Hypothesis Ls : length sd = S n.
  Hypothesis Lm : length md = S n.
  Hypothesis Nw : w <> 0.
  Hypothesis Nm : forall k, (k <= n)%nat -> cget (mu x) k <> RtoC 0.
  Let U t := u_val w lamb (sigma t) (mu t).
  Let Y t := Y_val w lamb (sigma t) (mu t).
  Let T t := t_val w lamb (sigma t) (mu t) (th t).
  Let Yh t := yh_val w lamb (sigma t) (mu t) (th t).
  Hypothesis Off : forall k, (k <= n)%nat -> let z := (U x k * U x k)%C in 0 < Cmod z + Re z.
  Hypothesis Nc : forall k, (k < n)%nat -> twice_cosh (U x k * RtoC (rget (th x) k))%C <> RtoC 0.
  Hypothesis Nd : forall k, (k < n)%nat -> (Y x k + Yh x (S k) * T x k)%C <> RtoC 0.

  Let iw := (Ci * RtoC w)%C.
  Lemma iw_nz : iw <> RtoC 0.
  Proof. intros E. apply (f_equal Im) in E. revert E. unfold iw. reim. cbn. lra. Qed.
  Lemma U_nz k : (k <= n)%nat -> U x k <> RtoC 0.
  Proof.
    intros Hk E. specialize (Off k Hk). cbv zeta in Off. rewrite E in Off.
    replace (RtoC 0 * RtoC 0)%C with (RtoC 0) in Off by ring. rewrite Cmod_0 in Off. cbn in Off. lra.
  Qed.
  Definition ud k : C := (Ci * RtoC (py_omega f) * (cget md k * cget (sigma x) k + cget (mu x) k * cget sd k) / (RtoC 2 * u_val (py_omega f) lamb (sigma x) (mu x) k))%C.
  Lemma D_s k : (k <= n)%nat -> is_cderive (fun t => cget (sigma t) k) x (cget sd k).
  Proof. intros H. apply (proj2 Cs). lia. Qed.
  Lemma D_m k : (k <= n)%nat -> is_cderive (fun t => cget (mu t) k) x (cget md k).
  Proof. intros H. apply (proj2 Cm). lia. Qed.
  Lemma D_U k : (k <= n)%nat -> is_cderive (fun t => U t k) x (ud k).
  Proof.
    intros Hk. pose proof (Off k Hk) as O. cbv zeta in O. unfold U, u_val in O. rewrite csqrt_sq in O.
    eapply is_cderive_eq.
    - unfold U, u_val. apply CD_csqrt; [|exact O].
      apply CD_minus; [apply CD_const|]. apply CD_mult; [apply CD_mult; [apply CD_const|apply D_m; exact Hk]|apply D_s; exact Hk].
    - unfold ud, u_val. fold w. unfold Cdiv. f_equal. ring.
  Qed.
  Lemma D_Y k : (k <= n)%nat -> is_cderive (fun t => Y t k) x ((ud k * (iw * cget (mu x) k) - U x k * (iw * cget md k)) / ((iw * cget (mu x) k) * (iw * cget (mu x) k)))%C.
  Proof.
    intros Hk. unfold Y, Y_val. apply (CD_div (fun t => U t k) (fun t => Ci * RtoC w * cget (mu t) k)%C).
    - apply D_U; exact Hk.
    - apply CD_scal. apply D_m; exact Hk.
    - apply Cmult_neq; [apply iw_nz|apply Nm; exact Hk].
  Qed.
  Lemma D_T k : (k < n)%nat -> is_cderive (fun t => T t k) x ((ud k * RtoC (rget (th x) k) + U x k * RtoC (rget hd k)) * (RtoC 1 - T x k * T x k))%C.
  Proof.
    intros Hk.
    refine (CD_tanh (fun t => U t k * RtoC (rget (th t) k))%C x (ud k * RtoC (rget (th x) k) + U x k * RtoC (rget hd k))%C _ (Nc k Hk)).
    refine (CD_mult (fun t => U t k) (fun t => RtoC (rget (th t) k)) x _ _ (D_U k ltac:(lia)) _).
    apply CD_real. exact (proj2 Ch k Hk).
  Qed.
  Lemma len_th t : length (th t) = n.
  Proof. apply (proj1 Ch). Qed.
  Lemma len_s t : length (sigma t) = S n.
  Proof. rewrite (proj1 Cs). exact Ls. Qed.
  Lemma len_m t : length (mu t) = S n.
  Proof. rewrite (proj1 Cm). exact Lm. Qed.

  Let g k := g_at mu0 f lamb (sigma x) (mu x) (th x) k.
  Let ds k := ds_at mu0 f lamb (sigma x) (mu x) (th x) k.
  Let dm k := dm_at mu0 f lamb (sigma x) (mu x) (th x) k.
  Let dh k := dh_at mu0 f lamb (sigma x) (mu x) (th x) k.
  Let base : C := (ds_last mu0 f lamb (sigma x) (mu x) (th x) * cget sd n + dm_last mu0 f lamb (sigma x) (mu x) (th x) * cget md n)%C.
  Definition term k : C := (ds_at mu0 f lamb (sigma x) (mu x) (th x) k * cget sd k + dh_at mu0 f lamb (sigma x) (mu x) (th x) k * RtoC (rget hd k) + dm_at mu0 f lamb (sigma x) (mu x) (th x) k * cget md k)%C.

  Lemma D_yh m : forall k, (k + m = n)%nat -> exists d, is_cderive (fun t => Yh t k) x d /\ (g k * d)%C = (sumf term m k + base)%C.
  Proof.
    induction m as [|m IH]; intros k Hk.
    - assert (k = n) by lia; subst k. eexists. split.
      + apply (is_cderive_ext (fun t => Y t n)); [|apply D_Y; lia].
        intros t. unfold Yh, Y. rewrite <- (len_th t). symmetry. apply yh_val_last.
      + cbn [sumf]. unfold base, ds_last, dm_last, gk2_last. rewrite len_th. fold w. fold (U x n) (g n).
        assert (E : yh_val w lamb (sigma x) (mu x) (th x) n = (U x n / (iw * cget (mu x) n))%C).
        { rewrite <- (len_th x). apply yh_val_last. }
        rewrite E. unfold ud. fold w (U x n). fold iw. rewrite half_eq.
        pose proof iw_nz. pose proof (U_nz n ltac:(lia)). pose proof (Nm n ltac:(lia)). pose proof C2_neq.
        replace (- Ci * RtoC w)%C with (- iw)%C by (unfold iw; ring). fold iw.
        field. repeat split; assumption.
    - destruct (IH (S k) ltac:(lia)) as (d & D & E).
      assert (Hk' : (k < n)%nat) by lia.
      eexists. split.
      + apply (is_cderive_ext (fun t => Y t k * (Yh t (S k) + Y t k * T t k) / (Y t k + Yh t (S k) * T t k))%C).
        * intros t. symmetry. apply (yh_val_step w lamb (sigma t) (mu t) (th t) k). rewrite len_th. exact Hk'.
        * apply CD_div.
          -- apply CD_mult; [apply D_Y; lia|]. apply CD_plus; [exact D|]. apply CD_mult; [apply D_Y; lia|apply D_T; exact Hk'].
          -- apply CD_plus; [apply D_Y; lia|]. apply CD_mult; [exact D|apply D_T; exact Hk'].
          -- apply Nd; exact Hk'.
      + cbv beta. rewrite step_alg by (apply Nd; exact Hk').
        cbn [sumf].
        change (g k * - (T x k * T x k - RtoC 1) * Y x k * Y x k / ((Y x k + Yh x (S k) * T x k) * (Y x k + Yh x (S k) * T x k)))%C with (g (S k)).
        rewrite E.
        change (g k * T x k * (RtoC 2 * T x k * Y x k * Yh x (S k) + Y x k * Y x k + Yh x (S k) * Yh x (S k)) / ((Y x k + Yh x (S k) * T x k) * (Y x k + Yh x (S k) * T x k)))%C with (st_gy (Y x) (T x) (Yh x) k (g k)).
        change (g k * (Y x k * Y x k * Y x k - Y x k * Yh x (S k) * Yh x (S k)) / ((Y x k + Yh x (S k) * T x k) * (Y x k + Yh x (S k) * T x k)))%C with (st_gtanh (Y x) (T x) (Yh x) k (g k)).
        unfold ud. fold w (U x k). fold iw.
        rewrite (layer_alg iw (cget (sigma x) k) (cget (mu x) k) (U x k) (Y x k) (RtoC (rget (th x) k)) (cget sd k) (cget md k) (RtoC (rget hd k)) (RtoC 1 - T x k * T x k)%C);
          [|apply iw_nz|apply Nm; lia|apply U_nz; lia|reflexivity].
        unfold term, ds_at, dh_at, dm_at, st_ds, st_dh, st_dm, st_gk2, st_gu.
        fold w. fold (g k) (U x) (Y x) (T x) (Yh x). fold iw. replace (- Ci * RtoC w)%C with (- iw)%C by (unfold iw; ring). ring.
  Qed.

  Lemma D_rTE : (RtoC lamb / (Ci * RtoC w * RtoC mu0) + Yh x 0)%C <> RtoC 0 ->
    let G := py_rTE_gradient mu0 f lamb (sigma x) (mu x) (th x) in
    is_cderive (fun t => py_rTE mu0 f lamb (sigma t) (mu t) (th t)) x
      (csum2 (fst (fst G)) sd + csum2 (snd (fst G)) (map RtoC hd) + csum2 (snd G) md)%C.
  Proof.
    intros N0. cbv zeta. rewrite py_gradient_val by (rewrite ?len_s, ?len_m, len_th; reflexivity). cbn [fst snd].
    rewrite len_th.
    rewrite (csum2_last (ds_at mu0 f lamb (sigma x) (mu x) (th x)) _ (cget sd) n 0 sd Ls) by (intros; reflexivity).
    rewrite (csum2_last (dm_at mu0 f lamb (sigma x) (mu x) (th x)) _ (cget md) n 0 md Lm) by (intros; reflexivity).
    rewrite (csum2_seq (dh_at mu0 f lamb (sigma x) (mu x) (th x)) (fun j => RtoC (rget hd j)) n 0 (map RtoC hd)).
    2:{ rewrite map_length. reflexivity. }
    2:{ intros j Hj. unfold cget, rget. cbn [Nat.add]. rewrite <- (map_nth RtoC). reflexivity. }
    destruct (D_yh n 0 eq_refl) as (d & D & E).
    apply (is_cderive_ext (fun t => (RtoC lamb / (Ci * RtoC w * RtoC mu0) - Yh t 0%nat) / (RtoC lamb / (Ci * RtoC w * RtoC mu0) + Yh t 0%nat))%C).
    { intros t. rewrite py_rTE_val by (rewrite ?len_s, ?len_m, len_th; reflexivity). reflexivity. }
    eapply is_cderive_eq.
    - apply CD_div; [apply CD_minus; [apply CD_const|exact D]|apply CD_plus; [apply CD_const|exact D]|exact N0].
    - cbv beta. etransitivity; [|etransitivity; [exact E|]].
      + unfold g, g_at. cbn [st_g]. unfold g_start. fold w. fold (Yh x 0%nat).
        set (Y0 := (RtoC lamb / (Ci * RtoC w * RtoC mu0))%C) in *. replace (RtoC 2) with (RtoC 1 + RtoC 1)%C by (apply C_eq; cbn; ring). field. exact N0.
      + unfold term, base. rewrite !sumf_plus. cbn [Nat.add]. ring.
  Qed.
End Curve.

Lemma Forall2_nth {A B} (P : A -> B -> Prop) da db : forall a b k, Forall2 P a b -> (k < length a)%nat -> P (nth k a da) (nth k b db).
Proof. intros a b k F; revert k; induction F; intros [|k] Hk; cbn in *; try lia; auto. apply IHF; lia. Qed.
Lemma Forall_nth_R (P : R -> Prop) : forall a k, List.Forall P a -> (k < length a)%nat -> P (rget a k).
Proof. intros a k F; revert k; induction F; intros [|k] Hk; cbn in *; try lia; auto. apply IHF; lia. Qed.

Section Phys.
  Variables (w lamb : R) (sigma mu : list C) (th : list R).
  Hypothesis Pw : 0 < w.
  Hypothesis HS : stack (layer_ok w lamb) sigma mu th.
  Let n := length th.
  Lemma good_k k : (k <= n)%nat -> layer_ok w lamb (cget sigma k) (cget mu k).
  Proof. intros Hk. destruct HS as (L & F & _). unfold cget; apply (Forall2_nth _ (RtoC 0) (RtoC 0) _ _ k F). fold n in L. lia. Qed.
  Lemma th_k k : (k < n)%nat -> 0 <= rget th k.
  Proof. intros Hk. destruct HS as (_ & _ & T). exact (Forall_nth_R (Rle 0) th k T Hk). Qed.
  Lemma upper_k m : forall k, (k + m = n)%nat -> upper (Ci * RtoC w * yh_val w lamb sigma mu th k)%C.
  Proof.
    induction m as [|m IH]; intros k Hk.
    - assert (k = n) by lia; subst k. unfold n. rewrite yh_val_last. apply (upper_base w lamb Pw). apply good_k. lia.
    - rewrite yh_val_step by (fold n; lia).
      apply (step_ground w lamb Pw (cget sigma k) (cget mu k) (rget th k) (yh_val w lamb sigma mu th (S k)) (good_k k ltac:(lia)) (th_k k ltac:(lia)) (IH (S k) ltac:(lia))).
  Qed.
  Lemma den_k k : (k < n)%nat -> twice_cosh (u_val w lamb sigma mu k * RtoC (rget th k))%C <> RtoC 0 /\
    (Y_val w lamb sigma mu k + yh_val w lamb sigma mu th (S k) * t_val w lamb sigma mu th k)%C <> RtoC 0.
  Proof.
    intros Hk. destruct (step_ground w lamb Pw (cget sigma k) (cget mu k) (rget th k) (yh_val w lamb sigma mu th (S k)) (good_k k ltac:(lia)) (th_k k ltac:(lia)) (upper_k (n - S k) (S k) ltac:(lia))) as (A & B & _).
    split; assumption.
  Qed.
  Lemma off_k k : (k <= n)%nat -> let z := (u_val w lamb sigma mu k * u_val w lamb sigma mu k)%C in 0 < Cmod z + Re z.
  Proof. intros Hk. cbv zeta. apply Cmod_gt_re. destruct (good_u w lamb Pw _ _ (good_k k Hk)) as (r & _ & _ & U & _). exact U. Qed.
  Lemma mu_k k : (k <= n)%nat -> cget mu k <> RtoC 0.
  Proof. intros Hk. destruct (good_k k Hk) as (r & P & -> & _). apply RtoC_neq. lra. Qed.
End Phys.

Lemma C19_lemma mu0 f lamb sigma mu th x sd md hd : 0 < mu0 -> 0 < f -> 0 < lamb ->
  is_curve sigma x sd -> is_curve mu x md -> is_rcurve th x hd ->
  ground f lamb (sigma x) (mu x) (th x) ->
  let G := py_rTE_gradient mu0 f lamb (sigma x) (mu x) (th x) in
  is_cderive (fun t => py_rTE mu0 f lamb (sigma t) (mu t) (th t)) x
    (csum2 (fst (fst G)) sd + csum2 (snd (fst G)) (map RtoC hd) + csum2 (snd G) md)%C.
Proof.
  intros Pm Pf Pl Cs Cm Ch HS. pose proof (omega_pos f Pf) as Pw. unfold ground in HS.
  change (2 * PI * f) with (py_omega f) in *.
  destruct (stack_lengths _ _ _ _ HS) as [L1 L2].
  assert (E1 := proj1 Cs x). assert (E2 := proj1 Cm x). assert (E3 := proj1 Ch x).
  apply (D_rTE mu0 f lamb sigma mu th x sd md hd); auto; try lia.
  - lra.
  - intros k Hk. apply (mu_k (py_omega f) lamb (sigma x) (mu x) (th x) HS). lia.
  - intros k Hk. apply (off_k (py_omega f) lamb (sigma x) (mu x) (th x) Pw HS). lia.
  - intros k Hk. apply (den_k (py_omega f) lamb (sigma x) (mu x) (th x) Pw HS). lia.
  - intros k Hk. apply (den_k (py_omega f) lamb (sigma x) (mu x) (th x) Pw HS). lia.
  - apply top_neq; auto. apply (upper_k (py_omega f) lamb (sigma x) (mu x) (th x) Pw HS (length (th x)) 0 eq_refl).
Qed.
