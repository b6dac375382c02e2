(** The layered dipole's field at one receiver: closed form and symmetries. *)
From Coq Require Import String Reals Lra Lia List Arith Bool.
From Coquelicot Require Import Coquelicot.
From Verif Require Import Vec3 Cplx Numpy Model_RTE Model_Static Model_Layered Spec_FDEM Spec_Layered Proof_RTE Proof_RTE6 Proof_Layered.
Import ListNotations.
Open Scope R_scope.

(** sum_i c(lambda_i) r_i w_i *)
Definition moment_sum (w : list R) (lam : list R) (r : list C) (c : R -> R) : C :=
  cdotr (map2 (fun la x => RtoC (c la) * x)%C lam r) w.
Lemma moment_sum_lin w : forall lam r (a b c d : R -> R) x y, (forall la, c la = x * a la + y * b la) ->
  d = c -> moment_sum w lam r d = (RtoC x * moment_sum w lam r a + RtoC y * moment_sum w lam r b)%C.
Proof.
  intros lam r a b c d x y H ->. unfold moment_sum, map2. revert r w.
  induction lam as [|la lam IH]; intros [|z r] [|v w]; cbn; try (apply C_eq; cbn; ring).
  rewrite IH, H. apply C_eq; cbn; ring.
Qed.
Lemma moment_sum_scal w lam r (a c : R -> R) x : (forall la, c la = x * a la) ->
  moment_sum w lam r c = (RtoC x * moment_sum w lam r a)%C.
Proof.
  intros H. rewrite (moment_sum_lin w lam r a a c c x 0); [apply C_eq; reim; ring| |reflexivity]. intros la. rewrite H. ring.
Qed.

Lemma nz_id src v : (src = 0 -> v = 0) -> when_nz src v = v.
Proof. unfold when_nz. destruct (Req_EM_T src 0); intros H; [symmetry; auto|reflexivity]. Qed.

(** the bracket of the secondary field in terms of three transforms *)
Definition em_of (o : vec3) (dx dy rho : R) (j02 j11 j12 : C) : cvec :=
  CV (RtoC (/ rho) * (RtoC ((vx o * dx + vy o * dy) * dx / rho ^ 2) * j02
        + RtoC (vx o / rho - 2 * (vx o * dx + vy o * dy) * dx / rho ^ 3) * j11 + RtoC (vz o * dx / rho) * j12))%C
     (RtoC (/ rho) * (RtoC ((vx o * dx + vy o * dy) * dy / rho ^ 2) * j02
        + RtoC (vy o / rho - 2 * (vx o * dx + vy o * dy) * dy / rho ^ 3) * j11 + RtoC (vz o * dy / rho) * j12))%C
     (RtoC (/ rho) * (RtoC (vz o) * j02 - RtoC ((vx o * dx + vy o * dy) / rho) * j12))%C.

Lemma hs_closed flt rho c0 c1 lam rte (a b d : R) : rho <> 0 ->
  (forall la, c0 la = a * la ^ 2) -> (forall la, c1 la = b * la + d * la ^ 2) ->
  hankel_sum flt rho c0 c1 lam rte =
  (RtoC (/ rho) * (RtoC a * moment_sum (hf_j0 flt) lam rte (fun la : R => (la ^ 2)%R)
    + RtoC b * moment_sum (hf_j1 flt) lam rte (fun la : R => la) + RtoC d * moment_sum (hf_j1 flt) lam rte (fun la : R => (la ^ 2)%R)))%C.
Proof.
  intros N H G. unfold hankel_sum. fold (moment_sum (hf_j0 flt) lam rte c0). fold (moment_sum (hf_j1 flt) lam rte c1).
  rewrite (moment_sum_scal _ lam rte (fun la : R => (la ^ 2)%R) c0 a H).
  rewrite (moment_sum_lin _ lam rte (fun la : R => la) (fun la : R => (la ^ 2)%R) c1 c1 b d G eq_refl).
  unfold Cdiv. rewrite <- RtoC_inv by assumption. ring.
Qed.

Definition decayed (flt : hankel) (rho zz : R) (rte : list C) : list C :=
  map2 (fun la r => r * RtoC (exp (- la * zz)))%C (map (fun b => b / rho) (hf_base flt)) rte.

Definition three (flt : hankel) (rho zz : R) (rte : list C) : C * C * C :=
  let lam := map (fun b => b / rho) (hf_base flt) in
  (moment_sum (hf_j0 flt) lam (decayed flt rho zz rte) (fun la : R => (la ^ 2)%R),
   moment_sum (hf_j1 flt) lam (decayed flt rho zz rte) (fun la : R => la),
   moment_sum (hf_j1 flt) lam (decayed flt rho zz rte) (fun la : R => (la ^ 2)%R)).

Definition closed (flt : hankel) (loc o : vec3) (m : R) (total : bool) (p : vec3) (rte : list C) : option cvec :=
  let rho := offset loc p in
  if Req_EM_T rho 0 then None
  else
    let '(j02, j11, j12) := three flt rho (vz p + vz loc) rte in
    let em := em_of o (vx p - vx loc) (vy p - vy loc) rho j02 j11 j12 in
    let em := if total then cvadd em (cvof (RtoC 1) (primary o (vsub p loc))) else em in
    Some (cvscal (RtoC (m / (4 * PI))) em).

Lemma receiver_closed flt s total p rte :
  receiver_field flt s total p rte = closed flt (ly_location s) (ly_orientation s) (ly_moment s) total p rte.
Proof.
  unfold receiver_field, closed, three. destruct (Req_EM_T _ 0) as [E|N]; [reflexivity|].
  set (rho := offset _ _) in *. set (o := ly_orientation s). fold (decayed flt rho (vz p + vz (ly_location s)) rte).
  set (lam := map _ _). set (rt := decayed _ _ _ _). cbn [vx vy vsub].
  set (dx := vx p - _). set (dy := vy p - _).
  assert (EX : hankel_sum flt rho (C0x o dx dy rho) (C1x o dx dy rho) lam rt = cvx (em_of o dx dy rho
    (moment_sum (hf_j0 flt) lam rt (fun la : R => (la ^ 2)%R)) (moment_sum (hf_j1 flt) lam rt (fun la : R => la)) (moment_sum (hf_j1 flt) lam rt (fun la : R => (la ^ 2)%R)))).
  { rewrite (hs_closed flt rho _ _ lam rt ((vx o * dx + vy o * dy) * dx / rho ^ 2) (vx o / rho - 2 * (vx o * dx + vy o * dy) * dx / rho ^ 3) (vz o * dx / rho) N); [reflexivity| |].
    - intros la. unfold C0x. rewrite !nz_id by (intros ->; field; assumption). field; assumption.
    - intros la. unfold C1x. rewrite !nz_id by (intros ->; field; assumption). field; assumption. }
  assert (EY : hankel_sum flt rho (C0y o dx dy rho) (C1y o dx dy rho) lam rt = cvy (em_of o dx dy rho
    (moment_sum (hf_j0 flt) lam rt (fun la : R => (la ^ 2)%R)) (moment_sum (hf_j1 flt) lam rt (fun la : R => la)) (moment_sum (hf_j1 flt) lam rt (fun la : R => (la ^ 2)%R)))).
  { rewrite (hs_closed flt rho _ _ lam rt ((vx o * dx + vy o * dy) * dy / rho ^ 2) (vy o / rho - 2 * (vx o * dx + vy o * dy) * dy / rho ^ 3) (vz o * dy / rho) N); [reflexivity| |].
    - intros la. unfold C0y. rewrite !nz_id by (intros ->; field; assumption). field; assumption.
    - intros la. unfold C1y. rewrite !nz_id by (intros ->; field; assumption). field; assumption. }
  assert (EZ : hankel_sum flt rho (C0z o dx dy rho) (C1z o dx dy rho) lam rt = cvz (em_of o dx dy rho
    (moment_sum (hf_j0 flt) lam rt (fun la : R => (la ^ 2)%R)) (moment_sum (hf_j1 flt) lam rt (fun la : R => la)) (moment_sum (hf_j1 flt) lam rt (fun la : R => (la ^ 2)%R)))).
  { rewrite (hs_closed flt rho _ _ lam rt (vz o) 0 (- ((vx o * dx + vy o * dy) / rho)) N).
    - unfold em_of; cbn [cvz]. apply C_eq; reim; ring.
    - intros la. unfold C0z. rewrite !nz_id by (intros ->; ring). ring.
    - intros la. unfold C1z. rewrite !nz_id by (intros ->; field; assumption). field; assumption. }
  rewrite EX, EY, EZ. reflexivity.
Qed.

(** geometry *)
Lemma offset_nz loc p : offset loc p <> 0 <-> beside p loc.
Proof.
  unfold offset, beside. set (a := vx p - vx loc). set (b := vy p - vy loc).
  assert (P : 0 <= a ^ 2 + b ^ 2) by (pose proof (pow2_ge_0 a); pose proof (pow2_ge_0 b); lra).
  split.
  - intros H. destruct (Req_dec a 0) as [A|A]; [|left; unfold a in A; intros E; apply A; rewrite E; ring].
    destruct (Req_dec b 0) as [B|B]; [|right; unfold b in B; intros E; apply B; rewrite E; ring].
    exfalso. apply H. rewrite A, B. replace (0 ^ 2 + 0 ^ 2) with 0 by ring. apply sqrt_0.
  - intros H E. apply sqrt_eq_0 in E; [|assumption].
    assert (a = 0) by (pose proof (pow2_ge_0 b); nra). assert (b = 0) by (pose proof (pow2_ge_0 a); nra).
    unfold a, b in *. destruct H as [H|H]; apply H; lra.
Qed.

Lemma cvscal_lin (k k1 k2 : R) a b : forall v, RtoC k = RtoC 1 ->
  v = cvadd a b -> cvscal (RtoC k) v = cvadd (cvscal (RtoC k) a) (cvscal (RtoC k) b).
Proof. intros v _ ->. unfold cvscal, cvadd; cbn [cvx cvy cvz]. f_equal; ring. Qed.

(** linearity in moment * orientation *)
Lemma closed_linear flt loc total p rte o m o1 m1 o2 m2 :
  vscal m o = vadd (vscal m1 o1) (vscal m2 o2) ->
  match closed flt loc o1 m1 total p rte, closed flt loc o2 m2 total p rte, closed flt loc o m total p rte with
  | Some a, Some b, Some c => c = cvadd a b
  | None, None, None => True
  | _, _, _ => False
  end.
Proof.
  intros H. unfold closed. destruct (Req_EM_T (offset loc p) 0) as [E|N]; [exact I|].
  destruct (three _ _ _ _) as [[j02 j11] j12]. injection H as Hx Hy Hz.
  set (rho := offset loc p) in *. set (dx := vx p - vx loc). set (dy := vy p - vy loc).
  destruct o as [ox oy oz], o1 as [ax ay az], o2 as [bx by_ bz]. cbn [vx vy vz] in *.
  assert (P4 : 4 * PI <> 0) by (pose proof PI_RGT_0; lra).
  assert (EM : cvscal (RtoC (m / (4 * PI))) (em_of (V3 ox oy oz) dx dy rho j02 j11 j12) =
    cvadd (cvscal (RtoC (m1 / (4 * PI))) (em_of (V3 ax ay az) dx dy rho j02 j11 j12)) (cvscal (RtoC (m2 / (4 * PI))) (em_of (V3 bx by_ bz) dx dy rho j02 j11 j12))).
  { assert (Q : forall o' m', cvscal (RtoC (m' / (4 * PI))) (em_of o' dx dy rho j02 j11 j12) = cvscal (RtoC (/ (4 * PI))) (em_of (vscal m' o') dx dy rho j02 j11 j12)).
    { intros o' m'. unfold em_of, cvscal, vscal; cbn [cvx cvy cvz vx vy vz]. f_equal; apply C_eq; reim; field; auto using PI_neq0. }
    rewrite !Q. unfold vscal; cbn [vx vy vz]. rewrite Hx, Hy, Hz.
    unfold em_of, cvscal, cvadd, vscal; cbn [cvx cvy cvz vx vy vz]. f_equal; apply C_eq; reim; field; auto using PI_neq0. }
  destruct total; [|exact EM].
  assert (Dist : forall k u v, cvscal k (cvadd u v) = cvadd (cvscal k u) (cvscal k v)).
  { intros k u v. unfold cvscal, cvadd; cbn [cvx cvy cvz]. f_equal; ring. }
  rewrite !Dist, EM. set (d := vsub p loc).
  assert (PM : cvscal (RtoC (m / (4 * PI))) (cvof (RtoC 1) (primary (V3 ox oy oz) d)) =
    cvadd (cvscal (RtoC (m1 / (4 * PI))) (cvof (RtoC 1) (primary (V3 ax ay az) d))) (cvscal (RtoC (m2 / (4 * PI))) (cvof (RtoC 1) (primary (V3 bx by_ bz) d)))).
  { assert (NV : vnorm d <> 0).
    { intros E. apply N. unfold vnorm in E. apply sqrt_eq_0 in E; [|unfold vnorm2; nra].
      unfold vnorm2 in E. unfold rho, offset. replace ((vx p - vx loc) ^ 2 + (vy p - vy loc) ^ 2) with 0; [apply sqrt_0|].
      unfold d in E; cbn in E. set (u := vx p - vx loc) in *. set (w := vy p - vy loc) in *. set (q := vz p - vz loc) in *. nra. }
    assert (Q : forall o' m', cvscal (RtoC (m' / (4 * PI))) (cvof (RtoC 1) (primary o' d)) = cvscal (RtoC (/ (4 * PI))) (cvof (RtoC 1) (primary (vscal m' o') d))).
    { intros o' m'. unfold primary, cvof, cvscal, vscal; cbn [cvx cvy cvz vx vy vz]. f_equal; apply C_eq; reim; field; auto using PI_neq0. }
    rewrite !Q. unfold vscal; cbn [vx vy vz]. rewrite Hx, Hy, Hz.
    unfold primary, cvof, cvscal, cvadd; cbn [cvx cvy cvz vx vy vz]. f_equal; apply C_eq; reim; field; auto using PI_neq0. }
  rewrite PM. unfold cvadd; cbn [cvx cvy cvz]. f_equal; ring.
Qed.

(** total minus secondary *)
Lemma closed_primary flt loc o m p rte mu : mu <> 0 -> match closed flt loc o m true p rte, closed flt loc o m false p rte with
  | Some a, Some b => beside p loc /\ cvsub a b = cvof (RtoC 1) (vdiv (md_B (MD m o loc mu) p) mu)
  | None, None => ~ beside p loc
  | _, _ => False
  end.
Proof.
  intros Hmu. unfold closed. destruct (Req_EM_T (offset loc p) 0) as [E|N].
  { intros H. apply offset_nz in H. contradiction. }
  destruct (three _ _ _ _) as [[j02 j11] j12]. split; [apply offset_nz; assumption|].
  assert (Q : forall k u v, cvsub (cvscal k (cvadd u v)) (cvscal k u) = cvscal k v).
  { intros k u v. unfold cvsub, cvscal, cvadd; cbn [cvx cvy cvz]. f_equal; ring. }
  rewrite Q. unfold md_B; cbn [md_loc md_orient md_moment md_mu]. set (d := vsub p loc).
  assert (NV : vnorm d <> 0).
  { intros E. apply N. unfold vnorm in E. apply sqrt_eq_0 in E; [|unfold vnorm2; nra].
    unfold vnorm2 in E. unfold offset. replace ((vx p - vx loc) ^ 2 + (vy p - vy loc) ^ 2) with 0; [apply sqrt_0|].
    unfold d in E; cbn in E. set (u := vx p - vx loc) in *. set (w := vy p - vy loc) in *. set (q := vz p - vz loc) in *. nra. }
  unfold primary, cvof, cvscal, vscal, vdiv, vsub, vdot; cbn [cvx cvy cvz vx vy vz]. fold (vnorm d).
  f_equal; apply C_eq; reim; field; auto using PI_neq0.
Qed.

(** rotation about the vertical *)
Lemma cs1 t : cos t * cos t + sin t * sin t = 1.
Proof. pose proof (sin2_cos2 t) as H. unfold Rsqr in H. lra. Qed.
Lemma offset_rotate t loc p : offset (rotate_z t loc) (rotate_z t p) = offset loc p.
Proof. unfold offset, rotate_z; cbn [vx vy]. f_equal. pose proof (cs1 t). set (c := cos t) in *. set (s := sin t) in *.
  replace ((c * vx p - s * vy p - (c * vx loc - s * vy loc)) ^ 2 + (s * vx p + c * vy p - (s * vx loc + c * vy loc)) ^ 2)
    with ((c * c + s * s) * ((vx p - vx loc) ^ 2 + (vy p - vy loc) ^ 2)) by ring. rewrite H. ring. Qed.

Lemma vnorm_rotate t loc p : vnorm (vsub (rotate_z t p) (rotate_z t loc)) = vnorm (vsub p loc).
Proof. unfold vnorm, vnorm2, vsub, rotate_z; cbn [vx vy vz]. f_equal. pose proof (cs1 t). set (c := cos t) in *. set (s := sin t) in *.
  match goal with |- ?l = ?r => replace l with ((c * c + s * s) * ((vx p - vx loc) ^ 2 + (vy p - vy loc) ^ 2) + (vz p - vz loc) ^ 2) by ring end. rewrite H. ring. Qed.

Lemma crot_scal t k v : crotate_z t (cvscal k v) = cvscal k (crotate_z t v).
Proof. unfold crotate_z, cvscal; cbn [cvx cvy cvz]. f_equal; ring. Qed.
Lemma crot_add t u v : crotate_z t (cvadd u v) = cvadd (crotate_z t u) (crotate_z t v).
Proof. unfold crotate_z, cvadd; cbn [cvx cvy cvz]. f_equal; ring. Qed.

Lemma em_rotate t o dx dy rho j02 j11 j12 : rho <> 0 ->
  em_of (rotate_z t o) (cos t * dx - sin t * dy) (sin t * dx + cos t * dy) rho j02 j11 j12 = crotate_z t (em_of o dx dy rho j02 j11 j12).
Proof.
  intros N. pose proof (cs1 t) as H. unfold em_of, crotate_z, rotate_z; cbn [cvx cvy cvz vx vy vz].
  assert (D : (cos t * vx o - sin t * vy o) * (cos t * dx - sin t * dy) + (sin t * vx o + cos t * vy o) * (sin t * dx + cos t * dy) = vx o * dx + vy o * dy).
  { replace (vx o * dx + vy o * dy) with ((cos t * cos t + sin t * sin t) * (vx o * dx + vy o * dy)) by (rewrite H; ring). ring. }
  rewrite D. f_equal; apply C_eq; reim; field; assumption.
Qed.

Lemma closed_rotate flt loc o m total p rte t :
  closed flt (rotate_z t loc) (rotate_z t o) m total (rotate_z t p) rte = option_map (crotate_z t) (closed flt loc o m total p rte).
Proof.
  unfold closed. rewrite offset_rotate. destruct (Req_EM_T (offset loc p) 0) as [E|N]; [reflexivity|]. cbn [option_map].
  replace (vz (rotate_z t p) + vz (rotate_z t loc)) with (vz p + vz loc) by reflexivity.
  destruct (three _ _ _ _) as [[j02 j11] j12]. cbn [option_map]. f_equal. rewrite crot_scal. f_equal.
  replace (vx (rotate_z t p) - vx (rotate_z t loc)) with (cos t * (vx p - vx loc) - sin t * (vy p - vy loc)) by (unfold rotate_z; cbn; ring).
  replace (vy (rotate_z t p) - vy (rotate_z t loc)) with (sin t * (vx p - vx loc) + cos t * (vy p - vy loc)) by (unfold rotate_z; cbn; ring).
  destruct total; [rewrite crot_add|]; rewrite em_rotate by assumption; [|reflexivity]. f_equal.
  assert (NV : vnorm (vsub p loc) <> 0).
  { intros E. apply N. unfold vnorm in E. apply sqrt_eq_0 in E; [|unfold vnorm2; nra].
    unfold vnorm2 in E. unfold offset. replace ((vx p - vx loc) ^ 2 + (vy p - vy loc) ^ 2) with 0; [apply sqrt_0|].
    cbn in E. set (u := vx p - vx loc) in *. set (w := vy p - vy loc) in *. set (q := vz p - vz loc) in *. nra. }
  unfold primary. rewrite vnorm_rotate.
  assert (DD : forall a b, vx (rotate_z t a) * vx (rotate_z t b) + vy (rotate_z t a) * vy (rotate_z t b) + vz (rotate_z t a) * vz (rotate_z t b) = vx a * vx b + vy a * vy b + vz a * vz b).
  { intros a b. unfold rotate_z; cbn [vx vy vz]. pose proof (cs1 t) as H.
    replace (vx a * vx b + vy a * vy b) with ((cos t * cos t + sin t * sin t) * (vx a * vx b + vy a * vy b)) by (rewrite H; ring). ring. }
  replace (vsub (rotate_z t p) (rotate_z t loc)) with (rotate_z t (vsub p loc)) by (unfold rotate_z, vsub; cbn; f_equal; ring).
  rewrite DD. set (r := vnorm _) in *. set (q := _ + _).
  unfold cvof, crotate_z, rotate_z; cbn [cvx cvy cvz vx vy vz]. f_equal; apply C_eq; reim; field; auto.
Qed.

(** exchanging source and receiver *)
Lemma offset_sym a b : offset a b = offset b a.
Proof. unfold offset. f_equal. ring. Qed.
Lemma vnorm_sym a b : vnorm (vsub a b) = vnorm (vsub b a).
Proof. unfold vnorm, vnorm2, vsub; cbn. f_equal. ring. Qed.

Lemma closed_reciprocal flt a b o1 o2 m total rte :
  match closed flt a o1 m total b rte, closed flt b o2 m total a rte with
  | Some h1, Some h2 => cvdot h1 o2 = cvdot h2 o1
  | None, None => True
  | _, _ => False
  end.
Proof.
  unfold closed. rewrite (offset_sym b a). destruct (Req_EM_T (offset a b) 0) as [E|N]; [exact I|].
  replace (vz a + vz b) with (vz b + vz a) by ring.
  destruct (three _ _ _ _) as [[j02 j11] j12]. set (rho := offset a b) in *.
  assert (Dist : forall k u v, cvdot (cvscal k u) v = (k * cvdot u v)%C) by (intros; unfold cvdot, cvscal; cbn; ring).
  assert (Add : forall u v w, cvdot (cvadd u v) w = (cvdot u w + cvdot v w)%C) by (intros; unfold cvdot, cvadd; cbn; ring).
  assert (EM : cvdot (em_of o1 (vx b - vx a) (vy b - vy a) rho j02 j11 j12) o2 = cvdot (em_of o2 (vx a - vx b) (vy a - vy b) rho j02 j11 j12) o1).
  { unfold cvdot, em_of; cbn [cvx cvy cvz]. apply C_eq; reim; field; assumption. }
  rewrite !Dist. f_equal. destruct total; [|exact EM]. rewrite !Add, EM. f_equal.
  unfold primary. rewrite (vnorm_sym b a).
  assert (NV : vnorm (vsub a b) <> 0).
  { intros E. apply N. unfold vnorm in E. apply sqrt_eq_0 in E; [|unfold vnorm2; nra].
    unfold vnorm2 in E. unfold rho, offset. replace ((vx b - vx a) ^ 2 + (vy b - vy a) ^ 2) with ((vx a - vx b) ^ 2 + (vy a - vy b) ^ 2) by ring.
    replace ((vx a - vx b) ^ 2 + (vy a - vy b) ^ 2) with 0; [apply sqrt_0|].
    cbn in E. set (u := vx a - vx b) in *. set (w := vy a - vy b) in *. set (q := vz a - vz b) in *. nra. }
  set (r := vnorm _) in *. unfold cvdot, cvof, vsub; cbn [cvx cvy cvz vx vy vz]. apply C_eq; reim; field; auto.
Qed.
