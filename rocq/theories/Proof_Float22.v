(** A straight wire in floating point (C144). *)
From Coq Require Import ZArith Reals Lra Lia Psatz List.
From Flocq Require Import Core.
From Verif Require Import Vec3 Numpy Model_Spatial Model_Static Model_Float Model_Float5 Model_Float9 Model_Float10 Spec_Static Spec_Float Spec_Float4 Spec_Float7 Spec_Float8
  Proof_Spatial Proof_Line Proof_Line2 Proof_Float Proof_Float2 Proof_Float3 Proof_Float9 Proof_Float11 Proof_Float13 Proof_Float14 Proof_Float18 Proof_Float19 Proof_Float21.
Import ListNotations.
Open Scope R_scope.

Ltac pos := repeat apply Rplus_le_le_0_compat; solve [apply sqr_nonneg|apply pow2_ge_0].
Section Wire.
  Variables (nrm : vec3 -> R) (dot : vec3 -> vec3 -> R) (rapply rinv : mat3 -> vec3 -> vec3) (ct st : R -> R) (at2 : R -> R -> R).
  Hypothesis GN : good_norm nrm. Hypothesis AB : absorbs nrm. Hypothesis EX : exact_on_axes dot.
  Hypothesis KA : keeps_identity rapply. Hypothesis KI : keeps_identity rinv.
  Hypothesis GC : good_cos ct. Hypothesis GS : good_sin st. Hypothesis GA : good_atan2 at2.
  Variables L x y z : R.
  Hypothesis FL : float L. Hypothesis FX : float x. Hypothesis FY : float y. Hypothesis FZ : float z.
  Hypothesis L0 : 0 < L. Hypothesis OFF : y <> 0 \/ z <> 0.
  Let p := V3 x y z.
  Let q := sqrt (y ^ 2 + z ^ 2).
  Let R0 := vnorm (V3 x y z). Let R1 := vnorm (V3 (x - L) y z).
  Let d1 := fl (x - L).
  Let c0 := fl (x / nrm (V3 x y z)). Let c1 := fl (d1 / nrm (V3 d1 y z)).
  Let th := at2 z y.
  Let q' := fl (sqrt (fl (fsq y + fsq z))).
  Let t := fl (fl (c1 - c0) / q').
  Let C0 := x / R0. Let C1 := (x - L) / R1.
  Lemma q2 : 0 < y ^ 2 + z ^ 2. Proof. destruct OFF; nra. Qed.
  Lemma q_pos : 0 < q. Proof. apply sqrt_lt_R0, q2. Qed.
  Lemma R0_pos : 0 < R0. Proof. apply sqrt_lt_R0. unfold vnorm2. cbn [vx vy vz]. pose proof q2. pose proof (sqr_nonneg x). lra. Qed.
  Lemma R1_pos : 0 < R1. Proof. apply sqrt_lt_R0. unfold vnorm2. cbn [vx vy vz]. pose proof q2. pose proof (sqr_nonneg (x - L)). lra. Qed.

  Lemma to_itself : frotation_matrix nrm dot (V3 1 0 0) (V3 1 0 0) default_tol = Ok Vec3.mid.
  Proof.
    assert (N : fnormalised nrm (V3 1 0 0) = V3 1 0 0) by (unfold fnormalised; rewrite (nrm_x nrm AB); cbn [vx vy vz]; unfold Rdiv; rewrite Rinv_1, !Rmult_1_r, fl0, fl1; reflexivity).
    unfold frotation_matrix. rewrite !N. cbv zeta.
    assert (C : fcross (V3 1 0 0) (V3 1 0 0) = V3 0 0 0) by (unfold fcross; cbn [vx vy vz]; rewrite ?Rmult_0_r, ?Rmult_0_l, ?fl0, ?Rminus_0_r, ?fl0; reflexivity).
    rewrite C. destruct (AB 0 0 0 float_0 float_0 float_0) as [Z _]. rewrite Z, Rabs_R0 by lra. destruct (EX (V3 1 0 0)) as [_ D]; [exact (float_bpow 0)|exact float_0|]. rewrite D. cbn [vx].
    assert (T : 0 < default_tol) by (unfold default_tol; lra). unfold Rltb. destruct (Rlt_dec 0 default_tol); [|lra]. destruct (Rlt_dec 1 0); [lra|]. reflexivity.
  Qed.
  Lemma seg_value : fseg_B nrm dot rapply rinv ct st at2 (V3 0 0 0) (V3 L 0 0) p = Ok (V3 0 (fl (0 - fl (t * st th))) (fl (0 + fl (t * ct th)))).
  Proof.
    unfold fseg_B, fdiff, p. cbn [vx vy vz]. rewrite !Rminus_0_r, !fl0, (fl_id L FL), (fl_id x FX), (fl_id y FY), (fl_id z FZ).
    assert (NL : nrm (V3 L 0 0) = L). { destruct (AB L 0 0 FL float_0 float_0) as [_ H]. rewrite H; [apply Rabs_pos_eq; lra|]. nra. }
    rewrite NL. unfold fvdiv at 1. cbn [vx vy vz]. replace (L / L) with 1 by (field; lra). replace (0 / L) with 0 by (field; lra). rewrite fl1, fl0, to_itself. cbn [rbind].
    rewrite (KA (V3 x y z) FX FY FZ). cbn [vx vy vz]. rewrite !Rminus_0_r, (fl_id y FY), (fl_id z FZ). fold d1.
    unfold fvdiv, fcart_to_cyl, fcyl_to_cart_vec. cbn [vx vy vz]. fold c0 c1 q' th. fold t. rewrite !Rmult_0_l, !fl0.
    rewrite KI; [reflexivity|exact float_0|apply fl_float|apply fl_float].
  Qed.
  Lemma near_n v : near 9 (nrm v) (vnorm v). Proof. apply (near_nrm nrm GN). Qed.
  Lemma near_c0 : near 10 c0 C0.
  Proof. apply near_round. change 9%nat with (0 + 9)%nat. apply near_div; [apply near_refl|apply near_n]. Qed.
  Lemma near_d1 : near 1 d1 (x - L). Proof. apply near_fl. Qed.
  Lemma near_c1 : near 12 c1 C1.
  Proof.
    apply near_round. change 11%nat with (1 + 10)%nat. apply near_div; [apply near_d1|]. change 10%nat with (9 + 1)%nat. apply (near_trans 9 1 _ (vnorm (V3 d1 y z))); [apply near_n|].
    unfold R1, vnorm. apply near_sqrt; [apply vnorm2_nonneg|]. unfold vnorm2. cbn [vx vy vz].
    apply near_plus; [pos|pos| |apply near_refl]. apply near_plus; [pos|pos| |apply near_refl]. change (2 * 1)%nat with (1 + 1)%nat. apply near_mult; apply near_d1.
  Qed.
  Lemma near_q : near 2 q' q.
  Proof.
    apply near_round. apply near_sqrt; [pos|]. change (2 * 1)%nat with 2%nat. apply near_round. 
    assert (S : forall s, near 1 (fsq s) (s ^ 2)) by (intro s; unfold fsq; replace (s ^ 2) with (s * s) by ring; apply near_fl).
    apply near_plus; [pos|pos|apply S|apply S].
  Qed.
  Let S := Rabs C0 + Rabs C1.
  Lemma S0 : 0 <= S. Proof. unfold S. pose proof (Rabs_pos C0). pose proof (Rabs_pos C1). lra. Qed.
  Lemma t_ae : ae 30 (S / q) t ((C1 - C0) / q).
  Proof.
    assert (A0 : ae 14 (Rabs C0) c0 C0) by (apply (ae_near 10); [lia|rewrite INR_IZR_INZ; cbn; lra|lra|apply near_c0]).
    assert (A1 : ae 14 (Rabs C1) c1 C1) by (apply (ae_near 12); [lia|rewrite INR_IZR_INZ; cbn; lra|lra|apply near_c1]).
    pose proof (ae_sub _ _ _ _ _ _ _ A1 A0) as D. rewrite Rplus_comm in D. fold S in D. apply ae_round in D; [|lra].
    pose proof q_pos as Q. assert (IQ : 0 < / q) by (apply Rinv_0_lt_compat, Q).
    assert (AQ : ae 3 (/ q) (/ q') (/ q)) by (apply (ae_near 2); [lia|cbn; lra|rewrite Rabs_pos_eq; lra|apply near_inv, near_q]).
    pose proof (ae_mul 3 (14 + 3) _ _ _ _ _ _ ltac:(lra) ltac:(lra) AQ D) as M. apply ae_round in M; [|lra]. 
    replace t with (fl (/ q' * fl (c1 - c0))) by (unfold t; f_equal; unfold Rdiv; ring). replace ((C1 - C0) / q) with (/ q * (C1 - C0)) by (unfold Rdiv; ring). replace (S / q) with (/ q * S) by (unfold Rdiv; ring).
    eapply ae_weaken; [| |exact M]; lra.
  Qed.
  Lemma th_err : Rabs (th - atan2 z y) <= 26 * u.
  Proof.
    destruct (GA z y) as [_ H]. unfold within in H. fold u in H. fold th in H. pose proof (atan2_range y z) as P. pose proof PI_close as PC.
    assert (Rabs (atan2 z y) <= 3.2) by (apply Rabs_le; lra). pose proof u_pos. pose proof (Rabs_pos (atan2 z y)). nra.
  Qed.
  Lemma trig_ae (f : R -> R) (cf : R -> R) : (forall a, within 8 (cf a) (f a)) -> (forall a, Rabs (f a) <= 1) -> (forall a b, Rabs (f a - f b) <= Rabs (a - b)) -> ae 34 1 (cf th) (f (atan2 z y)).
  Proof.
    intros W B LP. split; [|apply B]. pose proof (W th) as A. unfold within in A. fold u in A. pose proof (B th) as B1. pose proof (LP th (atan2 z y)) as E. pose proof th_err. pose proof u_pos.
    replace (cf th - f (atan2 z y)) with ((cf th - f th) + (f th - f (atan2 z y))) by ring. eapply Rle_trans; [apply Rabs_triang|]. nra.
  Qed.
  Lemma sin_ae : ae 34 1 (st th) (sin (atan2 z y)).
  Proof. apply trig_ae; [exact GS| |apply sin_lip]. intro a. apply Rabs_le. pose proof (SIN_bound a). lra. Qed.
  Lemma cos_ae : ae 34 1 (ct th) (cos (atan2 z y)).
  Proof. apply trig_ae; [exact GC| |apply cos_lip]. intro a. apply Rabs_le. pose proof (COS_bound a). lra. Qed.
  Lemma y_polar : y / q = cos (atan2 z y) /\ z / q = sin (atan2 z y).
  Proof. destruct (atan2_polar y z) as [A B]. fold q in A, B. pose proof q_pos. split; [rewrite <- A at 1|rewrite <- B at 1]; field; lra. Qed.
  Lemma part tr s : ae 34 1 tr s -> ae 107 (S / q) (fl (t * tr)) ((C1 - C0) / q * s).
  Proof.
    intros A. pose proof (ae_mul 34 30 _ _ _ _ _ _ ltac:(lra) ltac:(lra) A t_ae) as M. apply ae_round in M; [|lra]. rewrite Rmult_1_l in M.
    rewrite (Rmult_comm t), (Rmult_comm ((C1 - C0) / q)). eapply ae_weaken; [| |exact M]; lra.
  Qed.
  Variables mu I sigma : R.
  Let K := - mu * I / (4 * PI). Let K' := fl (fl (- mu * I) / fl (4 * fpi)).
  Lemma K_ae : ae 6 (Rabs K) K' K.
  Proof.
    apply (ae_near 4); [lia|cbn; lra|lra|]. apply near_round. change 3%nat with (1 + 2)%nat. apply near_div; [apply near_fl|]. apply near_round. change 1%nat with (0 + 1)%nat. apply near_mult; [apply near_refl|apply near_pi].
  Qed.
  Let W := V3 0 (fl (0 - fl (t * st th))) (fl (0 + fl (t * ct th))).
  Let V := V3 0 (- ((C1 - C0) / q * sin (atan2 z y))) ((C1 - C0) / q * cos (atan2 z y)).
  Lemma f_value : flc_flux_density nrm dot rapply rinv ct st at2 (x_wire L I sigma mu) p = Ok (fvscal K' W).
  Proof.
    unfold flc_flux_density, x_wire. cbn [lc_nodes lc_mu lc_current segments removelast tl combine fsum_B]. rewrite seg_value. cbn [rbind]. fold K'. unfold W. cbn [vx vy vz vzero].
    rewrite !Rplus_0_l, fl0, !flfl. reflexivity.
  Qed.
  Lemma proper : proper_segment (V3 0 0 0) (V3 L 0 0).
  Proof.
    split; [intro H; apply (f_equal vx) in H; cbn in H; lra|]. cbv zeta. right. unfold vcross, vsub, vscal, vzero. cbn [vx vy vz]. f_equal; ring.
  Qed.
  Lemma off : off_line p (V3 0 0 0) (V3 L 0 0).
  Proof. unfold off_line, p, vcross, vsub, vzero. cbn [vx vy vz]. intro H. apply V3_inj in H. destruct H as (_ & A & B). destruct OFF; nra. Qed.
  Lemma e_value : lc_flux_density (x_wire L I sigma mu) p = Ok (Some (vscal K V)).
  Proof.
    rewrite (B_value (x_wire L I sigma mu) p); [|split; [exact proper|exact Logic.I]|split; [exact off|exact Logic.I]].
    unfold x_wire. cbn [lc_mu lc_current lc_nodes wsum]. fold K. do 3 f_equal. pose proof q_pos as Q. destruct y_polar as [A B].
    assert (U : udir (V3 0 0 0) (V3 L 0 0) = V3 1 0 0).
    { unfold udir. assert (E : vnorm (vsub (V3 L 0 0) (V3 0 0 0)) = L). { unfold vnorm, vnorm2, vsub. cbn [vx vy vz]. replace ((L - 0) * (L - 0) + (0 - 0) * (0 - 0) + (0 - 0) * (0 - 0)) with (L * L) by ring. apply sqrt_square. lra. }
      rewrite E. unfold vdiv, vsub. cbn [vx vy vz]. f_equal; field; lra. }
    unfold gB. rewrite (perp2_cross _ _ _ proper), U. unfold Proof_Line.tB, Xc. rewrite U.
    replace (vsub p (V3 0 0 0)) with (V3 x y z) by (unfold p, vsub; cbn [vx vy vz]; f_equal; ring). replace (vsub p (V3 L 0 0)) with (V3 (x - L) y z) by (unfold p, vsub; cbn [vx vy vz]; f_equal; ring). fold R0 R1.
    replace (vdot (V3 1 0 0) (V3 x y z)) with x by (unfold vdot; cbn [vx vy vz]; ring). replace (vdot (V3 1 0 0) (V3 (x - L) y z)) with (x - L) by (unfold vdot; cbn [vx vy vz]; ring). fold C0 C1.
    replace (vcross (V3 1 0 0) (V3 x y z)) with (V3 0 (- z) y) by (unfold vcross; cbn [vx vy vz]; f_equal; ring).
    assert (Q2 : vnorm2 (V3 0 (- z) y) = q * q) by (unfold vnorm2, q; cbn [vx vy vz]; rewrite sqrt_sqrt by nra; ring). rewrite Q2. unfold V. rewrite <- A, <- B.
    unfold vadd, vscal, vzero. cbn [vx vy vz]. f_equal; field; lra.
  Qed.
  Lemma norm_V : vnorm (vscal K V) = Rabs K * (Rabs (C1 - C0) / q).
  Proof.
    pose proof q_pos as Q. rewrite vnorm_scal. f_equal. unfold vnorm, vnorm2, V. cbn [vx vy vz]. set (T := (C1 - C0) / q). pose proof (sin2_cos2 (atan2 z y)) as SC. unfold Rsqr in SC.
    replace (0 * 0 + - (T * sin (atan2 z y)) * - (T * sin (atan2 z y)) + T * cos (atan2 z y) * (T * cos (atan2 z y))) with (Rsqr T * (sin (atan2 z y) * sin (atan2 z y) + cos (atan2 z y) * cos (atan2 z y))) by (unfold Rsqr; ring).
    rewrite SC, Rmult_1_r, sqrt_Rsqr_abs. unfold T, Rdiv. rewrite Rabs_mult, (Rabs_pos_eq (/ q)); [reflexivity|]. left. apply Rinv_0_lt_compat, Q.
  Qed.
  Lemma wire_error : vnorm (vsub (fvscal K' W) (vscal K V)) <= 200 * u * (Rabs K * (S / q)).
  Proof.
    pose proof u_pos as Up. pose proof (part _ _ sin_ae) as P1. pose proof (part _ _ cos_ae) as P2.
    assert (E1 : vy W = - fl (t * st th)) by (unfold W; cbn [vy]; rewrite Rminus_0_l, fl_opp, flfl; reflexivity). assert (E2 : vz W = fl (t * ct th)) by (unfold W; cbn [vz]; rewrite Rplus_0_l, flfl; reflexivity).
    apply ae_opp in P1. pose proof (ae_mul 6 107 _ _ _ _ _ _ ltac:(lra) ltac:(lra) K_ae P1) as M1. pose proof (ae_mul 6 107 _ _ _ _ _ _ ltac:(lra) ltac:(lra) K_ae P2) as M2.
    apply ae_round in M1; [|lra]. apply ae_round in M2; [|lra]. destruct M1 as [M1 _], M2 as [M2 _].
    set (M := Rabs K * (S / q)) in *. assert (M0 : 0 <= M). { unfold M. pose proof q_pos. pose proof S0. apply Rmult_le_pos; [apply Rabs_pos|]. apply Rmult_le_pos; [exact S0|left; apply Rinv_0_lt_compat; assumption]. }
    assert (UM : 0 <= u * M) by nra. apply vnorm_le; [nra|]. unfold vnorm2, vsub, fvscal, vscal. cbn [vx vy vz]. fold K'. rewrite E1, E2. unfold V. cbn [vx vy vz]. replace (vx W) with 0 by reflexivity. rewrite Rmult_0_r, fl0.
    assert (Q : forall a c, Rabs a <= c -> a * a <= c * c) by (intros a c H; apply Rabs_le_inv in H; nra). apply Q in M1, M2. nra.
  Qed.
  (** the field itself is never zero *)
  Lemma turned_back a b k A B : 0 < k -> 0 < A -> 0 < B -> A * A = a * a + k -> B * B = b * b + k -> 0 <= a -> a < b -> a * B < b * A.
  Proof.
    intros HK A0 B0 EA EB P Q. apply Rsqr_incrst_0; [|nra|nra]. unfold Rsqr. replace (a * B * (a * B)) with (a * a * (B * B)) by ring. replace (b * A * (b * A)) with (b * b * (A * A)) by ring. rewrite EA, EB.
    assert (H : a * a < b * b) by nra. pose proof (Rmult_lt_compat_r k _ _ HK H). lra.
  Qed.
  Lemma steeper : C1 < C0.
  Proof.
    pose proof R0_pos as P0. pose proof R1_pos as P1. pose proof q2 as Q.
    assert (E0 : R0 * R0 = x * x + (y ^ 2 + z ^ 2)) by (unfold R0; rewrite vnorm_sqr; unfold vnorm2; cbn [vx vy vz]; ring).
    assert (E1 : R1 * R1 = (x - L) * (x - L) + (y ^ 2 + z ^ 2)) by (unfold R1; rewrite vnorm_sqr; unfold vnorm2; cbn [vx vy vz]; ring).
    assert (H : (x - L) * R0 < x * R1).
    { destruct (Rle_lt_dec 0 (x - L)) as [G|G]; [apply (turned_back _ _ _ _ _ Q P1 P0 E1 E0); lra|]. destruct (Rle_lt_dec x 0) as [G'|G']; [|nra].
      assert (- x * R1 < - (x - L) * R0); [|lra]. apply (turned_back _ _ (y ^ 2 + z ^ 2)); try assumption; lra. }
    unfold C1, C0. apply (Rmult_lt_reg_r (R0 * R1)); [nra|]. replace ((x - L) / R1 * (R0 * R1)) with ((x - L) * R0) by (field; lra). replace (x / R0 * (R0 * R1)) with (x * R1) by (field; lra). exact H.
  Qed.
  (** the two cosines round to the same number in the cones around the extensions of the wire *)
  Lemma lost : (L < x /\ y ^ 2 + z ^ 2 <= (x - L) ^ 2 / 2 ^ 56) \/ (x < 0 /\ y ^ 2 + z ^ 2 <= x ^ 2 / 2 ^ 56) -> c1 = c0.
  Proof.
    intros H. assert (Uv : u = / 2 ^ 53) by reflexivity. assert (D2 : (x - L) ^ 2 / 2 ^ 56 <= d1 ^ 2 / 2 ^ 55).
    { pose proof (fl_err (x - L)) as E. fold d1 in E. set (e := x - L) in *. pose proof (Rabs_triang_inv e d1) as T. rewrite Rabs_minus_sym in T. pose proof (Rabs_pos e) as P. rewrite Uv in E.
      assert (F : 9 / 10 * Rabs e <= Rabs d1) by lra. assert (G : 9 / 10 * Rabs e * (9 / 10 * Rabs e) <= Rabs d1 * Rabs d1) by (apply Rmult_le_compat; lra).
      rewrite <- (pow2_abs e), <- (pow2_abs d1). pose proof (pow2_ge_0 (Rabs e)). lra. }
    assert (FD : float d1) by apply fl_float.
    assert (N1 : y ^ 2 + z ^ 2 <= d1 ^ 2 / 2 ^ 55 -> nrm (V3 d1 y z) = Rabs d1) by (apply AB; assumption). assert (N0 : y ^ 2 + z ^ 2 <= x ^ 2 / 2 ^ 55 -> nrm (V3 x y z) = Rabs x) by (apply AB; assumption).
    pose proof (pow2_ge_0 x) as X2. unfold c1, c0. destruct H as [[H1 H2]|[H1 H2]].
    - assert (G : (x - L) ^ 2 <= x ^ 2) by nra. rewrite N1, N0 by lra. assert (D0 : 0 < d1) by (apply (near_pos 1 _ (x - L)); [apply near_d1|lra]). rewrite !Rabs_pos_eq by lra. f_equal. field. lra.
    - assert (G : x ^ 2 <= (x - L) ^ 2) by nra. rewrite N1, N0 by lra. assert (D0 : d1 < 0). { assert (0 < - d1); [|lra]. apply (near_pos 1 _ (- (x - L))); [apply near_opp, near_d1|lra]. }
      rewrite !minus_one by assumption. reflexivity.
  Qed.
  Lemma lost_zero : c1 = c0 -> fvscal K' W = vzero.
  Proof.
    intros H. assert (T : t = 0) by (unfold t; rewrite H; replace (c0 - c0) with 0 by ring; rewrite fl0; unfold Rdiv; rewrite Rmult_0_l; apply fl0).
    unfold fvscal, W. rewrite T. cbn [vx vy vz]. rewrite !Rmult_0_l, !fl0, Rminus_0_r, Rplus_0_r, !fl0, !Rmult_0_r, !fl0. reflexivity.
  Qed.
  Lemma real_field : mu <> 0 -> I <> 0 -> vscal K V <> vzero.
  Proof.
    intros M N Z. pose proof norm_V as E. rewrite Z, vnorm_zero in E. pose proof q_pos as Q. pose proof steeper as ST. pose proof PI_RGT_0.
    assert (0 < Rabs (C1 - C0)) by (apply Rabs_pos_lt; lra). assert (0 < Rabs K). { apply Rabs_pos_lt. unfold K. apply Rmult_integral_contrapositive_currified; [|apply Rinv_neq_0_compat; lra]. apply Rmult_integral_contrapositive_currified; lra. }
    assert (0 < Rabs (C1 - C0) / q) by (apply Rdiv_lt_0_compat; assumption). nra.
  Qed.
  Lemma beside : 0 <= x <= L -> S = Rabs (C1 - C0).
  Proof.
    intros B. pose proof R0_pos as P0. pose proof R1_pos as P1. assert (0 <= C0) by (apply Rmult_le_pos; [lra|left; apply Rinv_0_lt_compat, P0]).
    assert (C1 <= 0). { unfold C1. assert (0 <= (L - x) / R1) by (apply Rmult_le_pos; [lra|left; apply Rinv_0_lt_compat, P1]). replace ((x - L) / R1) with (- ((L - x) / R1)) by (field; lra). lra. }
    unfold S. rewrite (Rabs_pos_eq C0), (Rabs_left1 C1), (Rabs_left1 (C1 - C0)) by lra. ring.
  Qed.
  Lemma cosines : S <= 2.
  Proof.
    pose proof R0_pos as P0. pose proof R1_pos as P1.
    assert (H : forall a r, 0 < r -> Rabs a <= r -> Rabs (a / r) <= 1). { intros a r P A. unfold Rdiv. rewrite Rabs_mult, (Rabs_pos_eq (/ r)) by (left; apply Rinv_0_lt_compat, P). apply (Rmult_le_reg_r r); [exact P|]. rewrite Rmult_assoc, Rinv_l; lra. }
    assert (G : forall a, Rabs a <= vnorm (V3 a y z)). { intro a. unfold vnorm. rewrite <- sqrt_Rsqr_abs. apply sqrt_le_1_alt. unfold vnorm2, Rsqr. cbn [vx vy vz]. nra. }
    pose proof (H x R0 P0 (G x)). pose proof (H (x - L) R1 P1 (G (x - L))). unfold S, C0, C1. lra.
  Qed.
End Wire.
