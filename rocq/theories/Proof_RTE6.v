(** The admittance recursion in conductive media: no denominator vanishes, passivity *)
From Coq Require Import Reals List Lia Lra.
From Coquelicot Require Import Coquelicot.
From Verif Require Import Calculus Cplx Deriv Proof_FDEM Proof_TDEM4 Model_RTE.
Open Scope R_scope.

Lemma Re_opp z : Re (- z)%C = - Re z.
Proof. destruct z; reflexivity. Qed.
Lemma Im_opp z : Im (- z)%C = - Im z.
Proof. destruct z; reflexivity. Qed.
Lemma Re_mult a b : Re (a * b)%C = Re a * Re b - Im a * Im b.
Proof. destruct a, b; reflexivity. Qed.
Lemma Im_mult a b : Im (a * b)%C = Re a * Im b + Im a * Re b.
Proof. destruct a, b; reflexivity. Qed.
Lemma Re_plus a b : Re (a + b)%C = Re a + Re b.
Proof. destruct a, b; reflexivity. Qed.
Lemma Im_plus a b : Im (a + b)%C = Im a + Im b.
Proof. destruct a, b; reflexivity. Qed.
Lemma Re_minus a b : Re (a - b)%C = Re a - Re b.
Proof. destruct a, b; reflexivity. Qed.
Lemma Im_minus a b : Im (a - b)%C = Im a - Im b.
Proof. destruct a, b; reflexivity. Qed.
Lemma Re_RtoC r : Re (RtoC r) = r. Proof. reflexivity. Qed.
Lemma Im_RtoC r : Im (RtoC r) = 0. Proof. reflexivity. Qed.
Lemma Re_inv z : Re (/ z)%C = Re z / (Re z * Re z + Im z * Im z).
Proof. destruct z. unfold Cinv. cbn. rewrite !Rmult_1_r. reflexivity. Qed.
Lemma Im_inv z : Im (/ z)%C = - Im z / (Re z * Re z + Im z * Im z).
Proof. destruct z. unfold Cinv. cbn. rewrite !Rmult_1_r. reflexivity. Qed.
Ltac reim := unfold Cdiv; repeat rewrite ?Re_mult, ?Im_mult, ?Re_plus, ?Im_plus, ?Re_minus, ?Im_minus, ?Re_opp, ?Im_opp, ?Re_RtoC, ?Im_RtoC, ?Re_inv, ?Im_inv.

(** closed upper half plane without (-infinity, 0] *)
Definition upper (z : C) : Prop := 0 < Im z \/ Im z = 0 /\ 0 < Re z.

Lemma upper_neq_0 z : upper z -> z <> RtoC 0.
Proof. intros [H|[H G]] E; rewrite E in *; cbn in *; lra. Qed.
Lemma Cmod_gt_re z : upper z -> 0 < Cmod z + Re z.
Proof.
  intros H. destruct (Rle_lt_dec (Cmod z + Re z) 0) as [L|L]; [|assumption]. exfalso.
  pose proof (Cmod_sqr z) as S. pose proof (Cmod_ge_0 z) as G. pose proof (proj1 (Cmod_re_bounds z)) as B.
  assert (E : Cmod z = - Re z) by lra. rewrite E in S. assert (Im z * Im z = 0) by lra.
  assert (Im z = 0) by nra. destruct H as [K|[K K']]; lra.
Qed.
Lemma csqrt_upper z : upper z -> 0 < Re (csqrt z) /\ 0 <= Im (csqrt z).
Proof.
  intros H. pose proof (Cmod_gt_re z H) as P. unfold csqrt. cbn [Re Im fst snd]. split.
  - apply sqrt_lt_R0. lra.
  - destruct (Rle_dec 0 (Im z)) as [L|L]; [|destruct H as [K|[K K']]; lra].
    rewrite Rmult_1_l. apply sqrt_pos.
Qed.

(** positive multiples *)
Lemma upper_scal r z : 0 < r -> upper z -> upper (RtoC r * z)%C.
Proof. intros H [P|[P Q]]; [left|right]; reim; [|split]; nra. Qed.
Definition twice_cosh (z : C) : C := (cexp z + cexp (- z))%C.
Definition twice_sinh (z : C) : C := (cexp z - cexp (- z))%C.
Lemma ctanh_eq z : ctanh z = (twice_sinh z / twice_cosh z)%C.
Proof. reflexivity. Qed.

Lemma twice_cosh_neq_0 z : 0 < Re z \/ z = RtoC 0 -> twice_cosh z <> RtoC 0.
Proof.
  intros H E. unfold twice_cosh in E.
  assert (A : cexp z = (- cexp (- z))%C).
  { replace (cexp z) with ((cexp z + cexp (- z)) - cexp (- z))%C by ring. rewrite E. ring. }
  assert (B : Cmod (cexp z) = Cmod (cexp (- z)%C)) by (rewrite A, Cmod_opp; reflexivity).
  rewrite !Cmod_cexp in B. apply exp_inv in B.
  destruct H as [H|H].
  - rewrite Re_opp in B. lra.
  - subst z. replace (- RtoC 0)%C with (RtoC 0) in E by ring. rewrite cexp_0 in E.
    apply (f_equal Re) in E. cbn in E. lra.
Qed.

Section Wave.
  Variables (u w : C) (m : R).
  Hypothesis Pm : 0 < m.
  Hypothesis Pu : 0 < Re u.
  Let U := (u / RtoC m)%C.
  Let F (x : R) : C := (U * twice_cosh (u * RtoC x)%C + w * twice_sinh (u * RtoC x)%C)%C.
  Let G (x : R) : C := (u * (U * twice_sinh (u * RtoC x)%C + w * twice_cosh (u * RtoC x)%C))%C.

  Lemma D_cosh x : is_cderive (fun x => twice_cosh (u * RtoC x)%C) x (u * twice_sinh (u * RtoC x)%C)%C.
  Proof.
    assert (D : is_cderive (fun x => u * RtoC x)%C x u).
    { apply is_cderive_eq with (u * RtoC 1)%C; [apply CD_scal, CD_id|ring]. }
    eapply is_cderive_eq.
    - unfold twice_cosh. apply CD_plus; apply CD_exp; [exact D|apply CD_opp; exact D].
    - unfold twice_sinh. ring.
  Qed.
  Lemma D_sinh x : is_cderive (fun x => twice_sinh (u * RtoC x)%C) x (u * twice_cosh (u * RtoC x)%C)%C.
  Proof.
    assert (D : is_cderive (fun x => u * RtoC x)%C x u).
    { apply is_cderive_eq with (u * RtoC 1)%C; [apply CD_scal, CD_id|ring]. }
    eapply is_cderive_eq.
    - unfold twice_sinh. apply CD_minus; apply CD_exp; [exact D|apply CD_opp; exact D].
    - unfold twice_cosh. ring.
  Qed.
  Lemma D_F x : is_cderive F x (G x).
  Proof.
    eapply is_cderive_eq.
    - unfold F. apply CD_plus; apply CD_scal; [apply D_cosh|apply D_sinh].
    - unfold G. ring.
  Qed.
  Lemma D_G x : is_cderive G x (u * u * F x)%C.
  Proof.
    eapply is_cderive_eq.
    - unfold G. apply CD_scal. apply CD_plus; apply CD_scal; [apply D_sinh|apply D_cosh].
    - unfold F. ring.
  Qed.

  (** flux: G conj(F) *)
  Let a (x : R) := Im (G x) * Re (F x) - Re (G x) * Im (F x).
  Let b (x : R) := Re (G x) * Re (F x) + Im (G x) * Im (F x).
  Lemma D_a x : is_derive a x (Im (u * u)%C * (Re (F x) * Re (F x) + Im (F x) * Im (F x))).
  Proof.
    destruct (D_F x) as [F1 F2], (D_G x) as [G1 G2]. unfold a.
    eapply is_derive_eq.
    - apply D_minus; apply D_mult; eassumption.
    - reim. ring.
  Qed.
  Lemma D_b x : is_derive b x (Re (G x) * Re (G x) + Im (G x) * Im (G x) + Re (u * u)%C * (Re (F x) * Re (F x) + Im (F x) * Im (F x))).
  Proof.
    destruct (D_F x) as [F1 F2], (D_G x) as [G1 G2]. unfold b.
    eapply is_derive_eq.
    - apply D_plus; apply D_mult; eassumption.
    - reim. ring.
  Qed.

  Lemma F_0 : F 0 = (RtoC 2 * U)%C.
  Proof. unfold F, twice_cosh, twice_sinh. replace (u * RtoC 0)%C with (RtoC 0) by ring. replace (- RtoC 0)%C with (RtoC 0) by ring. rewrite cexp_0. apply C_eq; cbn; ring. Qed.
  Lemma G_0 : G 0 = (RtoC 2 * RtoC m * U * w)%C.
  Proof.
    unfold G, twice_cosh, twice_sinh. replace (u * RtoC 0)%C with (RtoC 0) by ring. replace (- RtoC 0)%C with (RtoC 0) by ring. rewrite cexp_0.
    replace (RtoC 2) with (RtoC 1 + RtoC 1)%C by (apply C_eq; cbn; ring).
    unfold U. field. apply RtoC_neq. lra.
  Qed.
  Lemma U_sq : 0 < Re U * Re U + Im U * Im U.
  Proof.
    assert (E : Re U = Re u / m) by (unfold U; reim; field; lra). rewrite E.
    assert (0 < Re u / m) by (apply Rdiv_lt_0_compat; assumption). nra.
  Qed.
  Lemma a_0 : a 0 = 4 * m * (Re U * Re U + Im U * Im U) * Im w.
  Proof. unfold a. rewrite F_0, G_0. generalize U. intros V. reim. ring. Qed.
  Lemma b_0 : b 0 = 4 * m * (Re U * Re U + Im U * Im U) * Re w.
  Proof. unfold b. rewrite F_0, G_0. generalize U. intros V. reim. ring. Qed.

  Lemma grows (f : R -> R) (l h : R) : 0 < h -> is_derive f 0 l -> 0 < l -> exists x, 0 < x < h /\ f 0 < f x.
  Proof.
    intros Hh D L. apply is_derive_Reals in D. destruct (D l L) as [d Hd].
    exists (Rmin (d / 2) (h / 2)).
    assert (Pd : 0 < d) by apply cond_pos.
    assert (0 < Rmin (d / 2) (h / 2)) by (apply Rmin_glb_lt; lra).
    assert (Rmin (d / 2) (h / 2) <= d / 2) by apply Rmin_l.
    assert (Rmin (d / 2) (h / 2) <= h / 2) by apply Rmin_r.
    split; [lra|]. set (x := Rmin (d / 2) (h / 2)) in *.
    specialize (Hd x ltac:(lra) ltac:(rewrite Rabs_right; lra)).
    rewrite Rplus_0_l in Hd. apply Rabs_def2 in Hd. destruct Hd as [_ Hd].
    assert (P : 0 < (f x - f 0) / x) by lra.
    apply Rmult_lt_compat_r with (r := x) in P; [|lra]. unfold Rdiv in P.
    rewrite Rmult_0_l, Rmult_assoc, Rinv_l, Rmult_1_r in P by lra. lra.
  Qed.

  Lemma flux_upper h : 0 <= h -> upper (u * u)%C -> upper w -> 0 < a h \/ a h = 0 /\ 0 < b h.
  Proof.
    intros Hh Hu Hw. pose proof U_sq as PU.
    assert (K : 0 < 4 * m * (Re U * Re U + Im U * Im U)) by (apply Rmult_lt_0_compat; lra).
    pose proof a_0 as A0. pose proof b_0 as B0.
    destruct Hh as [Hh|Hh].
    2:{ subst h. rewrite A0, B0. destruct Hw as [P|[P Q]]; [left; nra|right; rewrite P; split; [ring|nra]]. }
    assert (I0 : 0 <= Im (u * u)%C) by (destruct Hu as [P|[P Q]]; lra).
    assert (SQ : forall z : C, 0 <= Re z * Re z + Im z * Im z) by (intros; nra).
    assert (MA : forall x y, x < y -> a x <= a y).
    { intros x y L. apply (le_from a (fun x => Im (u * u)%C * (Re (F x) * Re (F x) + Im (F x) * Im (F x))) x y L).
      - intros; apply D_a.
      - intros; apply Rmult_le_pos; [assumption|apply SQ]. }
    destruct Hw as [P|[P Q]].
    - left. pose proof (MA 0 h Hh). rewrite A0 in H. nra.
    - assert (A00 : a 0 = 0) by (rewrite A0, P; ring).
      destruct Hu as [V|[V W]].
      + left. destruct (grows a _ h Hh (D_a 0)) as (x & Hx & Gx).
        * apply Rmult_lt_0_compat; [exact V|]. rewrite F_0.
          replace (Re (RtoC 2 * U)%C) with (2 * Re U) by (reim; ring). replace (Im (RtoC 2 * U)%C) with (2 * Im U) by (reim; ring). nra.
        * pose proof (MA x h ltac:(lra)). lra.
      + assert (BB : b 0 <= b h).
        { apply (le_from b (fun x => Re (G x) * Re (G x) + Im (G x) * Im (G x) + Re (u * u)%C * (Re (F x) * Re (F x) + Im (F x) * Im (F x))) 0 h Hh).
          - intros; apply D_b.
          - intros; apply Rplus_le_le_0_compat; [apply SQ|apply Rmult_le_pos; [lra|apply SQ]]. }
        pose proof (MA 0 h Hh). assert (0 < b h) by (rewrite B0 in BB; nra).
        destruct (Rle_lt_dec (a h) 0); [right; split; lra|left; assumption].
  Qed.

  Lemma flux_re h : 0 <= h -> 0 <= Re (u * u)%C -> 0 < Re w -> 0 < b h.
  Proof.
    intros Hh Hu Hw. pose proof U_sq as PU.
    assert (K : 0 < 4 * m * (Re U * Re U + Im U * Im U)) by (apply Rmult_lt_0_compat; lra).
    pose proof b_0 as B0. assert (0 < b 0) by (rewrite B0; nra).
    destruct Hh as [Hh|Hh]; [|subst h; assumption].
    assert (SQ : forall z : C, 0 <= Re z * Re z + Im z * Im z) by (intros; nra).
    assert (BB : b 0 <= b h).
    { apply (le_from b (fun x => Re (G x) * Re (G x) + Im (G x) * Im (G x) + Re (u * u)%C * (Re (F x) * Re (F x) + Im (F x) * Im (F x))) 0 h Hh).
      - intros; apply D_b.
      - intros; apply Rplus_le_le_0_compat; [apply SQ|apply Rmult_le_pos; [lra|apply SQ]]. }
    lra.
  Qed.

  Lemma flux_F_neq h : b h <> 0 \/ a h <> 0 -> F h <> RtoC 0.
  Proof. intros H E. unfold a, b in H. rewrite E in H. cbn in H. destruct H as [H|H]; apply H; ring. Qed.

  Lemma cosh_h h : 0 <= h -> twice_cosh (u * RtoC h)%C <> RtoC 0.
  Proof.
    intros [H|H]; apply twice_cosh_neq_0; [left|right; rewrite <- H; apply C_eq; reim; ring].
    reim. nra.
  Qed.

  Let t (h : R) := ctanh (u * RtoC h)%C.
  Lemma den_eq h : 0 <= h -> (U + w * t h)%C = (F h / twice_cosh (u * RtoC h)%C)%C.
  Proof. intros H. unfold t. rewrite ctanh_eq. unfold F. field. apply cosh_h; assumption. Qed.
  Lemma new_eq h : 0 <= h -> F h <> RtoC 0 -> (U * (w + U * t h) / (U + w * t h))%C = (/ RtoC m * (G h / F h))%C.
  Proof.
    intros H N. rewrite den_eq by assumption. unfold t. rewrite ctanh_eq. pose proof (cosh_h h H) as K.
    assert (M : RtoC m <> RtoC 0) by (apply RtoC_neq; lra).
    replace (G h) with (RtoC m * U * (U * twice_sinh (u * RtoC h)%C + w * twice_cosh (u * RtoC h)%C))%C by (unfold G, U; field; exact M).
    field. repeat split; assumption.
  Qed.
  Lemma ratio_parts h : F h <> RtoC 0 ->
    Re (G h / F h)%C = b h / (Re (F h) * Re (F h) + Im (F h) * Im (F h)) /\ Im (G h / F h)%C = a h / (Re (F h) * Re (F h) + Im (F h) * Im (F h)) /\
    0 < Re (F h) * Re (F h) + Im (F h) * Im (F h).
  Proof.
    intros N. unfold a, b. generalize dependent (F h). generalize (G h). intros g f N.
    assert (P : 0 < Re f * Re f + Im f * Im f).
    { destruct (Req_dec (Re f) 0) as [E|E]; [|nra]. destruct (Req_dec (Im f) 0) as [E'|E']; [|nra]. exfalso. apply N. apply C_eq; assumption. }
    split; [|split]; [| |exact P]; reim; field; nra.
  Qed.
  Lemma Re_inv_scal z : Re (/ RtoC m * z)%C = Re z / m /\ Im (/ RtoC m * z)%C = Im z / m.
  Proof. reim; split; field; lra. Qed.

  Lemma step_upper h : 0 <= h -> upper (u * u)%C -> upper w ->
    twice_cosh (u * RtoC h)%C <> RtoC 0 /\ (U + w * t h)%C <> RtoC 0 /\ upper (U * (w + U * t h) / (U + w * t h))%C.
  Proof.
    intros Hh Hu Hw. pose proof (flux_upper h Hh Hu Hw) as FL. pose proof (cosh_h h Hh) as K.
    assert (N : F h <> RtoC 0) by (apply flux_F_neq; destruct FL as [P|[P Q]]; [right|left]; lra).
    split; [exact K|]. split.
    - rewrite den_eq by assumption. intros E. apply N. replace (F h) with (F h / twice_cosh (u * RtoC h)%C * twice_cosh (u * RtoC h)%C)%C by (field; exact K). rewrite E. ring.
    - rewrite new_eq by assumption. destruct (ratio_parts h N) as (R1 & R2 & P). destruct (Re_inv_scal (G h / F h)%C) as [S1 S2].
      unfold upper. rewrite S1, S2, R1, R2.
      assert (J : 0 < / m) by (apply Rinv_0_lt_compat; assumption). assert (L := Rinv_0_lt_compat _ P).
      unfold Rdiv. destruct FL as [A|[A B]]; [left|right]; [|split].
      + apply Rmult_lt_0_compat; [apply Rmult_lt_0_compat|]; assumption.
      + rewrite A. ring.
      + apply Rmult_lt_0_compat; [apply Rmult_lt_0_compat|]; assumption.
  Qed.
  Lemma step_re h : 0 <= h -> 0 <= Re (u * u)%C -> 0 < Re w -> 0 < Re (U * (w + U * t h) / (U + w * t h))%C.
  Proof.
    intros Hh Hu Hw. pose proof (flux_re h Hh Hu Hw) as FL.
    assert (N : F h <> RtoC 0) by (apply flux_F_neq; left; lra).
    rewrite new_eq by assumption. destruct (ratio_parts h N) as (R1 & _ & P). destruct (Re_inv_scal (G h / F h)%C) as [S1 _].
    rewrite S1, R1. apply Rdiv_lt_0_compat; [apply Rdiv_lt_0_compat|]; assumption.
  Qed.
End Wave.
