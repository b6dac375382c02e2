(** C110: a current loop seen from a distance. *)
From Coq Require Import String Reals List Lra.
From Coquelicot Require Import Coquelicot.
From Verif Require Import Vec3 Calculus Deriv Integral Periodic.
Open Scope R_scope.

(** two opposite points at distances x and y, in units of the distance of their midpoint *)
Section Unit.
Variables x y e : R.
Hypothesis He : 0 <= e < 1. (* e = (a / r)^2 *)
Hypothesis Hx : 0 < x.
Hypothesis Hy : 0 < y.
Hypothesis Hs : x * x + y * y = 2 * (1 + e).
Hypothesis Hp : 1 - e <= x * y.

Let P := x * y.
Let g := x + y.
Let w := sqrt (1 + e).
Let u := / w.

Lemma up_w : 0 < w /\ w * w = 1 + e /\ 0 < u <= 1 /\ 1 - u * u <= e /\ u * w = 1 /\ w <= 1 + e / 2.
Proof.
  assert (W2 : w * w = 1 + e) by (apply sqrt_sqrt; lra). assert (W0 : 0 < w) by (apply sqrt_lt_R0; lra).
  assert (W1 : 1 <= w) by nra. assert (U : u * w = 1) by (unfold u; field; lra).
  assert (U0 : 0 < u) by (apply Rinv_0_lt_compat; lra). assert (U1 : u <= 1) by nra.
  assert (E : u * u * (1 + e) = 1) by (rewrite <- W2; replace (u * u * (w * w)) with ((u * w) * (u * w)) by ring; rewrite U; ring).
  repeat split; try assumption.
  - assert (0 <= u * u <= 1) by nra. assert (0 <= e * (1 - u * u)) by (apply Rmult_le_pos; lra). lra.
  - assert (0 <= e * e) by nra. apply Rnot_lt_le. intros N. assert ((1 + e / 2) * (1 + e / 2) < w * w) by (apply Rmult_le_0_lt_compat; lra). nra.
Qed.
Lemma up_P : 0 < P /\ 1 - e <= P <= 1 + e /\ 2 <= g <= 2 * w.
Proof.
  destruct up_w as (W0 & W2 & _). assert (P0 : 0 < P) by (apply Rmult_lt_0_compat; assumption).
  assert (PU : P <= 1 + e) by (unfold P; pose proof (Rle_0_sqr (x - y)) as SQ; unfold Rsqr in SQ; lra).
  assert (G2 : g * g = 2 * (1 + e) + 2 * P) by (unfold g, P; replace ((x + y) * (x + y)) with (x * x + y * y + 2 * (x * y)) by ring; rewrite Hs; ring).
  assert (G0 : 0 < g) by (unfold g; lra). unfold P in *.
  repeat split; try assumption.
  - apply Rnot_lt_le. intros N. nra.
  - apply Rnot_lt_le. intros N. nra.
Qed.

Lemma frac_le a b c d : 0 < b -> 0 < d -> a * d <= c * b -> a / b <= c / d.
Proof.
  intros B D H. apply Rmult_le_reg_r with (b * d); [apply Rmult_lt_0_compat; assumption|].
  replace (a / b * (b * d)) with (a * d) by (field; lra). replace (c / d * (b * d)) with (c * b) by (field; lra). exact H.
Qed.

Lemma unit_first : Rabs (4 / (P * g) - 2) <= 3 * (e / (1 - e)).
Proof.
  destruct up_w as (W0 & W2 & U & UE & UW & _). destruct up_P as (P0 & PB & G).
  assert (F : 0 <= e / (1 - e)) by (apply Rmult_le_pos; [lra|apply Rlt_le, Rinv_0_lt_compat; lra]).
  assert (F1 : e <= e / (1 - e)).
  { replace e with (e / 1) at 1 by field. apply frac_le; nra. }
  apply Rabs_le. split.
  - assert (L : 2 * u ^ 3 <= 4 / (P * g)).
    { replace (2 * u ^ 3) with (4 / (2 * w ^ 3)) by (unfold u; field; lra). apply frac_le.
      - apply Rmult_lt_0_compat; [lra|apply pow_lt; lra].
      - apply Rmult_lt_0_compat; lra.
      - assert (P * g <= w * w * (2 * w)) by (apply Rmult_le_compat; lra). nra. }
    assert (1 - u ^ 3 <= 3 / 2 * (1 - u * u)).
    { replace (1 - u ^ 3) with ((1 - u) * (1 + u + u * u)) by ring. replace (3 / 2 * (1 - u * u)) with ((1 - u) * (3 / 2 * (1 + u))) by field.
      apply Rmult_le_compat_l; nra. }
    lra.
  - assert (L : 4 / (P * g) <= 2 / (1 - e)).
    { apply frac_le; [apply Rmult_lt_0_compat; lra|lra|]. assert ((1 - e) * 2 <= P * g) by (apply Rmult_le_compat; lra). lra. }
    replace (2 / (1 - e)) with (2 + 2 * (e / (1 - e))) in L by (field; lra). lra.
Qed.

Lemma cube_le p q : 0 <= p <= q -> p ^ 3 <= q ^ 3.
Proof. intros H. apply pow_incr. exact H. Qed.
Lemma e_le_cube : e <= e / (1 - e) ^ 3 /\ 0 < (1 - e) ^ 3 <= 1.
Proof.
  assert (C : 0 < (1 - e) ^ 3) by (apply pow_lt; lra).
  assert (C1 : (1 - e) ^ 3 <= 1) by (replace 1 with (1 ^ 3) at 2 by ring; apply cube_le; lra).
  split; [|split; assumption]. replace e with (e / 1) at 1 by field. apply frac_le; nra.
Qed.

Lemma unit_third : Rabs (4 * (x * x + P + y * y) / (g * P ^ 3) - 6) <= 20 * (e / (1 - e) ^ 3).
Proof.
  destruct up_w as (W0 & W2 & U & UE & UW & _). destruct up_P as (P0 & PB & G). destruct e_le_cube as (EC & C0 & C1).
  replace (x * x + P + y * y) with (2 * (1 + e) + P) by lra.
  assert (P3 : 0 < P ^ 3) by (apply pow_lt; exact P0). assert (D : 0 < g * P ^ 3) by (apply Rmult_lt_0_compat; lra).
  apply Rabs_le. split.
  - assert (L : 6 * u ^ 5 <= 4 * (2 * (1 + e) + P) / (g * P ^ 3)).
    { replace (6 * u ^ 5) with (6 / w ^ 5) by (unfold u; field; lra). assert (W5 : 0 < w ^ 5) by (apply pow_lt; lra). apply frac_le; [exact W5|exact D|].
      apply Rle_trans with (6 * (2 * w * (P * P ^ 2))); [|].
      - apply Rmult_le_compat_l; [lra|]. replace (g * P ^ 3) with (g * (P * P ^ 2)) by ring. apply Rmult_le_compat_r; [|lra]. apply Rlt_le. replace (P * P ^ 2) with (P ^ 3) by ring. exact P3.
      - replace (4 * (2 * (1 + e) + P) * w ^ 5) with (4 * w * ((2 * (1 + e) + P) * (w * w) * (w * w))) by ring. rewrite W2. set (W := 1 + e) in *.
        replace (6 * (2 * w * (P * P ^ 2))) with (4 * w * (3 * P * P * P)) by ring. apply Rmult_le_compat_l; [lra|].
        assert (P * P <= W * W) by (apply Rmult_le_compat; lra). assert (3 * P <= 2 * W + P) by lra.
        assert (3 * P * (P * P) <= (2 * W + P) * (W * W)) by (apply Rmult_le_compat; nra). lra. }
    assert (1 - u ^ 5 <= 5 / 2 * (1 - u * u)).
    { replace (1 - u ^ 5) with ((1 - u) * (1 + u + u ^ 2 + u ^ 3 + u ^ 4)) by ring. replace (5 / 2 * (1 - u * u)) with ((1 - u) * (5 / 2 * (1 + u))) by field.
      apply Rmult_le_compat_l; [lra|]. assert (u ^ 2 <= u) by nra. assert (u ^ 3 <= u) by (replace (u ^ 3) with (u * u ^ 2) by ring; nra).
      assert (u ^ 4 <= u) by (replace (u ^ 4) with (u * u ^ 3) by ring; nra). lra. }
    lra.
  - assert (L : 4 * (2 * (1 + e) + P) / (g * P ^ 3) <= (6 + 2 * e) / (1 - e) ^ 3).
    { apply frac_le; [exact D|exact C0|].
      apply Rle_trans with ((6 + 2 * e) * (2 * P ^ 3)).
      2:{ apply Rmult_le_compat_l; [lra|]. apply Rmult_le_compat_r; lra. }
      set (Q := 1 - e) in *. assert (Q0 : 0 < Q) by (unfold Q; lra).
      replace (6 + 2 * e) with (2 * (2 * (1 + e) + Q)) by (unfold Q; ring).
      assert (H2 : Q * Q <= P * P) by (apply Rmult_le_compat; lra).
      assert (K : (2 * (1 + e) + P) * Q <= (2 * (1 + e) + Q) * P) by nra.
      assert (Z : (2 * (1 + e) + P) * Q * (Q * Q) <= (2 * (1 + e) + Q) * P * (P * P)) by (apply Rmult_le_compat; nra).
      replace (4 * (2 * (1 + e) + P) * Q ^ 3) with (4 * ((2 * (1 + e) + P) * Q * (Q * Q))) by ring.
      replace (2 * (2 * (1 + e) + Q) * (2 * P ^ 3)) with (4 * ((2 * (1 + e) + Q) * P * (P * P))) by ring. lra. }
    eapply Rle_trans; [apply Rplus_le_compat_r, L|].
    replace ((6 + 2 * e) / (1 - e) ^ 3 + - (6)) with ((20 * e - 18 * e * e + 6 * (e * e * e)) / (1 - e) ^ 3) by (field; lra).
    replace (20 * (e / (1 - e) ^ 3)) with ((20 * e) / (1 - e) ^ 3) by (field; lra). apply Rmult_le_compat_r; [apply Rlt_le, Rinv_0_lt_compat, C0|]. assert (e * e * e <= e * e) by nra. nra.
Qed.

Lemma unit_sum : Rabs (g * (x * x - P + y * y) / P ^ 3 - 2) <= 13 * (e / (1 - e) ^ 3).
Proof.
  destruct up_w as (W0 & W2 & U & UE & UW & WE). destruct up_P as (P0 & PB & G). destruct e_le_cube as (EC & C0 & C1).
  replace (x * x - P + y * y) with (2 * (1 + e) - P) by lra.
  assert (P3 : 0 < P ^ 3) by (apply pow_lt; exact P0).
  apply Rabs_le. split.
  - assert (L : 2 / (1 + e) ^ 2 <= g * (2 * (1 + e) - P) / P ^ 3).
    { apply frac_le; [apply pow_lt; lra|exact P3|]. set (W := 1 + e) in *.
      assert (P * P * P <= W * W * W) by (apply Rmult_le_compat; [nra|lra|apply Rmult_le_compat; lra|lra]).
      assert (2 * W <= g * (2 * W - P)) by (apply Rmult_le_compat; lra).
      replace (2 * P ^ 3) with (2 * (P * P * P)) by ring. replace (g * (2 * W - P) * W ^ 2) with (g * (2 * W - P) * (W * W)) by ring.
      apply Rle_trans with (2 * W * (W * W)); [lra|]. apply Rmult_le_compat_r; nra. }
    assert (2 - 4 * e <= 2 / (1 + e) ^ 2).
    { replace (2 - 4 * e) with ((2 - 4 * e) / 1) by field. apply frac_le; [lra|apply pow_lt; lra|]. assert (0 <= e * e * e) by nra. nra. }
    lra.
  - assert (L : g * (2 * (1 + e) - P) / P ^ 3 <= (2 + e) * (1 + 3 * e) / (1 - e) ^ 3).
    { apply frac_le; [exact P3|exact C0|]. apply Rmult_le_compat.
      - apply Rmult_le_pos; lra.
      - lra.
      - apply Rmult_le_compat; lra.
      - apply cube_le; lra. }
    eapply Rle_trans; [apply Rplus_le_compat_r, L|].
    replace ((2 + e) * (1 + 3 * e) / (1 - e) ^ 3 + - (2)) with ((13 * e - 3 * (e * e) + 2 * (e * e * e)) / (1 - e) ^ 3) by (field; lra).
    replace (13 * (e / (1 - e) ^ 3)) with ((13 * e) / (1 - e) ^ 3) by (field; lra). apply Rmult_le_compat_r; [apply Rlt_le, Rinv_0_lt_compat, C0|]. assert (e * e * e <= e * e) by nra. nra.
Qed.
End Unit.

(** the distance from a point to the points of a circle, and to the opposite ones *)
Section Ring.
Variables r a du dv : R.
Hypothesis Ha : 0 <= a < r.
Hypothesis Hd : du * du + dv * dv <= r * r.
Let S t := du * cos t + dv * sin t.
Let D t := r ^ 2 + a ^ 2 - 2 * a * S t.
Let e := (a / r) ^ 2.

Lemma rg_e : 0 <= e < 1.
Proof.
  assert (0 <= a / r) by (apply Rmult_le_pos; [lra|apply Rlt_le, Rinv_0_lt_compat; lra]).
  assert (a / r < 1) by (apply Rmult_lt_reg_r with r; [lra|]; unfold Rdiv; rewrite Rmult_assoc, Rinv_l by lra; lra). unfold e. split; nra.
Qed.
Lemma rg_S t : Rabs (S t) <= r.
Proof.
  assert (H : S t * S t <= r * r).
  { eapply Rle_trans; [|exact Hd]. pose proof (sin2_cos2 t) as SC. unfold Rsqr in SC. unfold S. set (c := cos t) in *. set (s := sin t) in *.
    pose proof (Rle_0_sqr (du * s - dv * c)) as Q. unfold Rsqr in Q.
    assert (X : (du * du + dv * dv) * (s * s + c * c) = (du * c + dv * s) * (du * c + dv * s) + (du * s - dv * c) * (du * s - dv * c)) by ring. rewrite SC in X. lra. }
  apply Rabs_le. split; apply Rnot_lt_le; intro N; nra.
Qed.
Lemma rg_D t : (r - a) ^ 2 <= D t /\ 0 < D t.
Proof.
  assert (L : (r - a) ^ 2 <= D t). { pose proof (rg_S t) as H. apply Rabs_le_between in H. unfold D. assert (a * S t <= a * r) by (apply Rmult_le_compat_l; lra). lra. }
  split; [exact L|]. eapply Rlt_le_trans; [|exact L]. apply pow_lt. lra.
Qed.
Lemma rg_S_pi t : S (t + PI) = - S t. Proof. unfold S. rewrite neg_cos, neg_sin. ring. Qed.
Lemma rg_cont_S t : continuous S t.
Proof. apply continuity_pt_filterlim. unfold S. eapply derive_continuity. der. Qed.

Lemma rg_pair t :
  let x := sqrt (D t) in let y := sqrt (D (t + PI)) in 0 < x /\ 0 < y /\
  Rabs (/ x - / y - 2 * a * S t / r ^ 3) <= a / r ^ 2 * (3 * (e / (1 - e))) /\
  Rabs (/ x ^ 3 - / y ^ 3 - 6 * a * S t / r ^ 5) <= a / r ^ 4 * (20 * (e / (1 - e) ^ 3)) /\
  Rabs (/ x ^ 3 + / y ^ 3 - 2 / r ^ 3) <= / r ^ 3 * (13 * (e / (1 - e) ^ 3)).
Proof.
  cbv zeta. destruct (rg_D t) as [_ D1]. destruct (rg_D (t + PI)) as [_ D2]. pose proof rg_e as E. assert (R0 : 0 < r) by lra.
  assert (X2 : sqrt (D t) * sqrt (D t) = D t) by (apply sqrt_sqrt; lra). assert (Y2 : sqrt (D (t + PI)) * sqrt (D (t + PI)) = D (t + PI)) by (apply sqrt_sqrt; lra).
  assert (X0 : 0 < sqrt (D t)) by (apply sqrt_lt_R0; exact D1). assert (Y0 : 0 < sqrt (D (t + PI))) by (apply sqrt_lt_R0; exact D2).
  set (x := sqrt (D t)) in *. set (y := sqrt (D (t + PI))) in *. unfold D in X2, Y2. rewrite rg_S_pi in Y2. pose proof (rg_S t) as HS. set (c := S t) in *.
  clearbody x y c. clear D1 D2.
  assert (C2 : c * c <= r * r) by (apply Rabs_le_between in HS; assert (0 <= (r - c) * (r + c)) by (apply Rmult_le_pos; lra); lra).
  set (X := x / r). set (Y := y / r). assert (X0' : 0 < X) by (apply Rdiv_lt_0_compat; assumption). assert (Y0' : 0 < Y) by (apply Rdiv_lt_0_compat; assumption).
  assert (SU : X * X + Y * Y = 2 * (1 + e)).
  { unfold X, Y, e. replace (x / r * (x / r) + y / r * (y / r)) with ((x * x + y * y) / r ^ 2) by (field; lra). rewrite X2, Y2. field. lra. }
  assert (PR : 1 - e <= X * Y).
  { assert (Q : (1 - e) * (1 - e) <= X * Y * (X * Y)).
    { replace (X * Y * (X * Y)) with ((x * x) * (y * y) / r ^ 4) by (unfold X, Y; field; lra). rewrite X2, Y2. unfold e.
      replace ((1 - (a / r) ^ 2) * (1 - (a / r) ^ 2)) with ((r ^ 2 - a ^ 2) ^ 2 / r ^ 4) by (field; lra). apply Rmult_le_compat_r; [apply Rlt_le, Rinv_0_lt_compat, pow_lt, R0|].
      replace ((r ^ 2 + a ^ 2 - 2 * a * c) * (r ^ 2 + a ^ 2 - 2 * a * - c)) with ((r ^ 2 - a ^ 2) ^ 2 + 4 * (a * a) * (r * r - c * c)) by ring.
      assert (0 <= 4 * (a * a) * (r * r - c * c)) by (apply Rmult_le_pos; nra). lra. }
    assert (0 < X * Y) by (apply Rmult_lt_0_compat; assumption). apply Rnot_lt_le. intros N. nra. }
  pose proof (unit_first X Y e E X0' Y0' SU PR) as U1. pose proof (unit_third X Y e E X0' Y0' SU PR) as U3. pose proof (unit_sum X Y e E X0' Y0' SU PR) as US.
  assert (DF : (y - x) * (x + y) = 4 * a * c) by (replace ((y - x) * (x + y)) with (y * y - x * x) by ring; rewrite X2, Y2; ring).
  assert (AC : Rabs (a * c) <= a * r) by (rewrite Rabs_mult, (Rabs_pos_eq a) by lra; apply Rmult_le_compat_l; lra).
  assert (GE : y - x = 4 * a * c / (x + y)) by (rewrite <- DF; field; lra).
  split; [exact X0|]. split; [exact Y0|]. split; [|split].
  - replace (/ x - / y - 2 * a * c / r ^ 3) with (a * c / r ^ 3 * (4 / (X * Y * (X + Y)) - 2)).
    2:{ replace (/ x - / y) with ((y - x) / (x * y)) by (field; lra). rewrite GE. unfold X, Y. field. lra. }
    rewrite Rabs_mult. replace (a / r ^ 2 * (3 * (e / (1 - e)))) with (a * r / r ^ 3 * (3 * (e / (1 - e)))) by (field; lra).
    apply Rmult_le_compat; try apply Rabs_pos; [|exact U1]. unfold Rdiv. rewrite Rabs_mult, (Rabs_pos_eq (/ r ^ 3)) by (apply Rlt_le, Rinv_0_lt_compat, pow_lt, R0).
    apply Rmult_le_compat_r; [apply Rlt_le, Rinv_0_lt_compat, pow_lt, R0|exact AC].
  - replace (/ x ^ 3 - / y ^ 3 - 6 * a * c / r ^ 5) with (a * c / r ^ 5 * (4 * (X * X + X * Y + Y * Y) / ((X + Y) * (X * Y) ^ 3) - 6)).
    2:{ replace (/ x ^ 3 - / y ^ 3) with ((y - x) * (x * x + x * y + y * y) / (x * y) ^ 3) by (field; lra). rewrite GE. unfold X, Y. field. lra. }
    rewrite Rabs_mult. replace (a / r ^ 4 * (20 * (e / (1 - e) ^ 3))) with (a * r / r ^ 5 * (20 * (e / (1 - e) ^ 3))) by (field; lra).
    apply Rmult_le_compat; try apply Rabs_pos; [|exact U3]. unfold Rdiv. rewrite Rabs_mult, (Rabs_pos_eq (/ r ^ 5)) by (apply Rlt_le, Rinv_0_lt_compat, pow_lt, R0).
    apply Rmult_le_compat_r; [apply Rlt_le, Rinv_0_lt_compat, pow_lt, R0|exact AC].
  - replace (/ x ^ 3 + / y ^ 3 - 2 / r ^ 3) with (/ r ^ 3 * ((X + Y) * (X * X - X * Y + Y * Y) / (X * Y) ^ 3 - 2)).
    2:{ unfold X, Y. field. lra. }
    rewrite Rabs_mult, (Rabs_pos_eq (/ r ^ 3)) by (apply Rlt_le, Rinv_0_lt_compat, pow_lt, R0).
    apply Rmult_le_compat_l; [apply Rlt_le, Rinv_0_lt_compat, pow_lt, R0|exact US].
Qed.

(** integrals of the pairs once around *)
Lemma half_turn (f : R -> R) J : (forall t, f (t + 2 * PI) = f t) -> (forall t, continuous f t) -> is_RInt f 0 (2 * PI) J ->
  is_RInt (fun t => (f t + f (t + PI)) / 2) 0 (2 * PI) J.
Proof.
  intros P C H. pose proof (periodic_shift f (2 * PI) PI J P C H) as H2.
  assert (K := is_RInt_scal (V:=R_NormedModule) _ _ _ (/ 2) _ (is_RInt_plus (V:=R_NormedModule) _ _ _ _ _ _ H H2)).
  eapply is_RInt_ext; [|replace J with (scal (/ 2) (plus J J) : R); [exact K|]].
  - intros t _. unfold scal, plus; cbn. unfold mult; cbn. field.
  - unfold scal, plus; cbn. unfold mult; cbn. field.
Qed.

Lemma turn_quadratic al be ga : is_RInt (fun t => (be * cos t - al * sin t) * S t + ga) 0 (2 * PI) (PI * (be * du - al * dv) + 2 * PI * ga).
Proof.
  assert (PIpos := PI_RGT_0).
  set (F := fun t => be * du * (t / 2 + sin t * cos t / 2) + (be * dv - al * du) * (sin t * sin t / 2) - al * dv * (t / 2 - sin t * cos t / 2) + ga * t).
  replace (PI * (be * du - al * dv) + 2 * PI * ga) with (minus (F (2 * PI)) (F 0) : R).
  - apply (is_RInt_derive (V:=R_CompleteNormedModule) F).
    + intros t _. unfold F, S. eapply is_derive_eq; [der; lra|].
      assert (S2 : sin t ^ 2 = 1 - cos t ^ 2) by (pose proof (sin2_cos2 t) as HH; unfold Rsqr in HH; cbn; lra).
      field_simplify. rewrite S2. field.
    + intros t _. apply continuity_pt_filterlim. unfold S. eapply derive_continuity. der.
  - unfold F, minus, plus, opp; cbn. rewrite sin_2PI, cos_2PI, sin_0, cos_0. field.
Qed.

Lemma rg_near (f h : R -> R) J L M : is_RInt f 0 (2 * PI) J -> is_RInt h 0 (2 * PI) L -> (forall t, Rabs (f t - h t) <= M) -> Rabs (J - L) <= 2 * PI * M.
Proof.
  intros Hf Hh B. assert (PIpos := PI_RGT_0).
  assert (HD := is_RInt_minus (V:=R_NormedModule) _ _ _ _ _ _ Hf Hh).
  pose proof (norm_RInt_le_const (V:=R_NormedModule) _ 0 (2 * PI) _ M ltac:(lra) (fun t _ => B t) HD) as K.
  unfold minus, plus, opp, norm in K; cbn in K. unfold abs in K; cbn in K. rewrite Rminus_0_r in K. exact K.
Qed.
Lemma rg_cont (f : R -> R) k : (forall t, continuous f t) -> forall t, continuous (fun t => f t / sqrt (D t) ^ k) t.
Proof.
  intros C t. apply (continuous_mult (U:=R_UniformSpace) (K:=R_AbsRing) f (fun t => / sqrt (D t) ^ k)); [apply C|].
  apply continuity_pt_filterlim. destruct (rg_D t) as [_ P]. pose proof (sqrt_lt_R0 _ P) as Q. unfold D, S in *. eapply derive_continuity.
  der; first [exact P|apply pow_nonzero; lra].
Qed.
Lemma rg_period t : D (t + 2 * PI) = D t.
Proof. unfold D, S. rewrite <- (cos_period t 1), <- (sin_period t 1). do 4 f_equal; [f_equal; f_equal; cbn; ring|f_equal; f_equal; cbn; ring]. Qed.

Lemma far_first al be M J : (forall t, Rabs (be * cos t - al * sin t) <= M) ->
  is_RInt (fun t => (be * cos t - al * sin t) / sqrt (D t) ^ 1) 0 (2 * PI) J ->
  Rabs (J - PI * a * (be * du - al * dv) / r ^ 3) <= PI * M * (a / r ^ 2 * (3 * (e / (1 - e)))).
Proof.
  intros B H. assert (PIpos := PI_RGT_0). assert (R0 : 0 < r) by lra. assert (M0 : 0 <= M) by (eapply Rle_trans; [apply Rabs_pos|apply (B 0)]).
  apply half_turn in H.
  - pose proof (turn_quadratic (a / r ^ 3 * al) (a / r ^ 3 * be) 0) as Q.
    replace (PI * a * (be * du - al * dv) / r ^ 3) with (PI * (a / r ^ 3 * be * du - a / r ^ 3 * al * dv) + 2 * PI * 0) by (field; lra).
    set (q := e / (1 - e)) in *.
    replace (PI * M * (a / r ^ 2 * (3 * q))) with (2 * PI * (M / 2 * (a / r ^ 2 * (3 * q)))) by (field; lra).
    eapply rg_near; [exact H|exact Q|]. intros t. destruct (rg_pair t) as (X & Y & E1 & _). fold q in E1. rewrite neg_cos, neg_sin.
    set (x := sqrt (D t)) in *. set (y := sqrt (D (t + PI))) in *. set (m := be * cos t - al * sin t). specialize (B t). fold m in B. set (c := S t) in *.
    replace (((m / x ^ 1 + (be * - cos t - al * - sin t) / y ^ 1) / 2) - ((a / r ^ 3 * be * cos t - a / r ^ 3 * al * sin t) * c + 0))
      with (m / 2 * (/ x - / y - 2 * a * c / r ^ 3)) by (unfold m; field; lra).
    rewrite Rabs_mult. apply Rmult_le_compat; try apply Rabs_pos; [|exact E1].
    unfold Rdiv. rewrite Rabs_mult, (Rabs_pos_eq (/ 2)) by lra. lra.
  - intros t. rewrite rg_period. f_equal. rewrite <- (cos_period t 1), <- (sin_period t 1). f_equal; [f_equal; f_equal; cbn; ring|f_equal; f_equal; cbn; ring].
  - intros t. apply (rg_cont (fun t => be * cos t - al * sin t) 1). intros v. apply continuity_pt_filterlim. eapply derive_continuity. der.
Qed.

Lemma far_third al be ga M J : (forall t, Rabs (be * cos t - al * sin t) <= M) ->
  is_RInt (fun t => (be * cos t - al * sin t + ga) / sqrt (D t) ^ 3) 0 (2 * PI) J ->
  Rabs (J - PI * (3 * a * (be * du - al * dv) / r ^ 5 + 2 * ga / r ^ 3)) <= PI * (M * a * r * 20 + Rabs ga * r ^ 2 * 13) / r ^ 5 * (e / (1 - e) ^ 3).
Proof.
  intros B H. assert (PIpos := PI_RGT_0). assert (R0 : 0 < r) by lra. assert (M0 : 0 <= M) by (eapply Rle_trans; [apply Rabs_pos|apply (B 0)]).
  apply half_turn in H.
  - pose proof (turn_quadratic (3 * a / r ^ 5 * al) (3 * a / r ^ 5 * be) (ga / r ^ 3)) as Q.
    replace (PI * (3 * a * (be * du - al * dv) / r ^ 5 + 2 * ga / r ^ 3)) with (PI * (3 * a / r ^ 5 * be * du - 3 * a / r ^ 5 * al * dv) + 2 * PI * (ga / r ^ 3)) by (field; lra).
    set (q := e / (1 - e) ^ 3) in *.
    replace (PI * (M * a * r * 20 + Rabs ga * r ^ 2 * 13) / r ^ 5 * q) with (2 * PI * (M / 2 * (a / r ^ 4 * (20 * q)) + Rabs ga / 2 * (/ r ^ 3 * (13 * q)))) by (field; lra).
    eapply rg_near; [exact H|exact Q|]. intros t. destruct (rg_pair t) as (X & Y & _ & E3 & ES). fold q in E3, ES. rewrite neg_cos, neg_sin.
    set (x := sqrt (D t)) in *. set (y := sqrt (D (t + PI))) in *. set (m := be * cos t - al * sin t). specialize (B t). fold m in B. set (c := S t) in *.
    replace (((m + ga) / x ^ 3 + (be * - cos t - al * - sin t + ga) / y ^ 3) / 2 - ((3 * a / r ^ 5 * be * cos t - 3 * a / r ^ 5 * al * sin t) * c + ga / r ^ 3))
      with (m / 2 * (/ x ^ 3 - / y ^ 3 - 6 * a * c / r ^ 5) + ga / 2 * (/ x ^ 3 + / y ^ 3 - 2 / r ^ 3)) by (unfold m; field; lra).
    eapply Rle_trans; [apply Rabs_triang|]. apply Rplus_le_compat; rewrite Rabs_mult; apply Rmult_le_compat; try apply Rabs_pos; [|exact E3| |exact ES];
      unfold Rdiv; rewrite Rabs_mult, (Rabs_pos_eq (/ 2)) by lra; lra.
  - intros t. rewrite rg_period. f_equal. rewrite <- (cos_period t 1), <- (sin_period t 1). f_equal. f_equal; [f_equal; f_equal; cbn; ring|f_equal; f_equal; cbn; ring].
  - intros t. apply (rg_cont (fun t => be * cos t - al * sin t + ga) 3). intros v. apply continuity_pt_filterlim. eapply derive_continuity. der.
Qed.
End Ring.
