(** Exchange of transmitter and receiver, and linearity, for the magnetic dipole on a half-space. *)
From Coq Require Import Reals Lra List Bool String.
From Coquelicot Require Import Coquelicot.
From Verif Require Import Vec3 Cplx Numpy Model_Static Model_FDEM Spec_Linear
  Proof_Static2 Proof_FDEM Proof_FDEM2 Proof_FDEM3 Proof_FDEM4 Proof_FDEM5 Proof_FDEM6 Proof_Loop2.
Open Scope R_scope.
Section HS.
  Variable iv kv : nat -> C -> C.
  Variable mu_0 : R.
  Lemma mh_exchange md m1 o1 c1 m2 o2 c2 sec : vx c2 <> vx c1 \/ vy c2 <> vy c1 ->
    (RtoC m2 * cvdot (mh_H iv kv mu_0 (MH md m1 o1 c1) sec c2) o2 = RtoC m1 * cvdot (mh_H iv kv mu_0 (MH md m2 o2 c2) sec c1) o1)%C.
  Proof.
    intro O. assert (O' : vx c1 <> vx c2 \/ vy c1 <> vy c2) by (destruct O; [left|right]; congruence).
    rewrite (mh_form _ _ _ (MH md m1 o1 c1)) by exact O. rewrite (mh_form _ _ _ (MH md m2 o2 c2)) by exact O'.
    cbn [mh_moment mh_med mh_orient mh_loc].
    change (mh_k mu_0 (MH md m2 o2 c2)) with (mh_k mu_0 (MH md m1 o1 c1)).
    replace (vx c1 - vx c2) with (- (vx c2 - vx c1)) by ring. replace (vy c1 - vy c2) with (- (vy c2 - vy c1)) by ring.
    destruct (off_pos (MH md m1 o1 c1) c2 O) as [P _]. cbn [mh_loc] in P.
    set (k := mh_k mu_0 _). set (x := vx c2 - vx c1) in *. set (y := vy c2 - vy c1) in *.
    unfold mh_vec, mh_prim. replace ((- x) ^ 2 + (- y) ^ 2) with (x ^ 2 + y ^ 2) by ring. set (r := sqrt _) in *.
    set (ph := mh_phi k r). set (dp := mh_dphi_dr k r). set (hz := mh_hz k r). set (g := mh_g _ _ _ _).
    clearbody ph dp hz g r k x y.
    assert (N : RtoC r <> 0%C) by (apply RtoC_neq; lra).
    assert (N4 : RtoC (4 * PI) <> 0%C) by (apply RtoC_neq; pose proof PI_RGT_0; lra).
    rewrite (RtoC_div m1), (RtoC_div m2) by (pose proof PI_RGT_0; lra). revert N4. generalize (RtoC (4 * PI)). intros q N4.
    destruct o1 as [a1 b1 d1], o2 as [a2 b2 d2]. unfold cvdot. destruct sec; cbn [cvx cvy cvz cvscal cvsub cvadd cvof cvzero vx vy vz]; push; cnum; field; split; assumption.
  Qed.
  Lemma mh_basis md c p sec : vx p <> vx c \/ vy p <> vy c -> exists X Y Z, forall m o,
    mh_H iv kv mu_0 (MH md m o c) sec p = cvadd (cvscal (RtoC (m * vx o)) X) (cvadd (cvscal (RtoC (m * vy o)) Y) (cvscal (RtoC (m * vz o)) Z)).
  Proof.
    intros O. exists (mh_H iv kv mu_0 (MH md 1 (V3 1 0 0) c) sec p), (mh_H iv kv mu_0 (MH md 1 (V3 0 1 0) c) sec p), (mh_H iv kv mu_0 (MH md 1 (V3 0 0 1) c) sec p).
    intros m o.
    rewrite (mh_form _ _ _ (MH md m o c)) by exact O. rewrite (mh_form _ _ _ (MH md 1 (V3 1 0 0) c)) by exact O.
    rewrite (mh_form _ _ _ (MH md 1 (V3 0 1 0) c)) by exact O. rewrite (mh_form _ _ _ (MH md 1 (V3 0 0 1) c)) by exact O.
    cbn [mh_moment mh_med mh_orient mh_loc].
    change (mh_k mu_0 (MH md 1 (V3 1 0 0) c)) with (mh_k mu_0 (MH md m o c)). change (mh_k mu_0 (MH md 1 (V3 0 1 0) c)) with (mh_k mu_0 (MH md m o c)).
    change (mh_k mu_0 (MH md 1 (V3 0 0 1) c)) with (mh_k mu_0 (MH md m o c)).
    destruct (off_pos (MH md m o c) p O) as [P _]. cbn [mh_loc] in P.
    set (k := mh_k mu_0 _). set (x := vx p - vx c) in *. set (y := vy p - vy c) in *.
    unfold mh_vec, mh_prim. set (r := sqrt _) in *.
    set (ph := mh_phi k r). set (dp := mh_dphi_dr k r). set (hz := mh_hz k r). set (g := mh_g _ _ _ _).
    clearbody ph dp hz g r k x y.
    assert (N : RtoC r <> 0%C) by (apply RtoC_neq; lra).
    assert (N4 : RtoC (4 * PI) <> 0%C) by (apply RtoC_neq; pose proof PI_RGT_0; lra).
    rewrite (RtoC_div m), (RtoC_div 1) by (pose proof PI_RGT_0; lra). revert N4. generalize (RtoC (4 * PI)). intros q N4.
    destruct o as [a b d]. destruct sec; apply cvec_eq; cbn [cvx cvy cvz cvscal cvsub cvadd cvof cvzero vx vy vz]; push; cnum; field; split; assumption.
  Qed.
  Lemma mh_linear md c p a b m o m1 o1 m2 o2 sec : vx p <> vx c \/ vy p <> vy c -> vscal m o = vcomb a b (vscal m1 o1) (vscal m2 o2) ->
    mh_H iv kv mu_0 (MH md m o c) sec p = ccomb a b (mh_H iv kv mu_0 (MH md m1 o1 c) sec p) (mh_H iv kv mu_0 (MH md m2 o2 c) sec p).
  Proof.
    intros O E. destruct (mh_basis md c p sec O) as (X & Y & Z & B). rewrite !B.
    pose proof (f_equal vx E) as Ex. pose proof (f_equal vy E) as Ey. pose proof (f_equal vz E) as Ez. unfold vcomb in Ex, Ey, Ez. cbn in Ex, Ey, Ez.
    rewrite Ex, Ey, Ez. unfold ccomb. apply cvec_eq; cbn [cvx cvy cvz cvscal cvadd]; rewrite !RtoC_plus, !RtoC_mult; ring.
  Qed.
End HS.
