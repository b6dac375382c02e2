(** Proofs about the Oksar solver: what a batch of one or three stations gives. *)
From Coq Require Import Reals List Bool Arith Lra Lia.
From Verif Require Import Numpy Model_Oksar Spec_Oksar.
Import ListNotations.
Open Scope R_scope.

Lemma Rltb_false x y : Rltb x y = false <-> y <= x.
Proof. unfold Rltb. destruct (Rlt_dec x y); split; intros; try discriminate; try lra; reflexivity. Qed.
Lemma Rltb_true x y : Rltb x y = true <-> x < y.
Proof. unfold Rltb. destruct (Rlt_dec x y); split; intros; try discriminate; try lra; reflexivity. Qed.
Lemma Reqb_true x y : Reqb x y = true <-> x = y.
Proof. unfold Reqb. destruct (Req_EM_T x y); split; intros; try discriminate; try lra; tauto. Qed.
Lemma Reqb_false x y : Reqb x y = false <-> x <> y.
Proof. unfold Reqb. destruct (Req_EM_T x y); split; intros; try discriminate; try lra; tauto. Qed.

(** ** nothing is snapped *)
Lemma snap_id m x : Rabs x <= m -> x = 0 \/ (EPS <= Rabs x /\ EPS * m <= Rabs x) -> snap m x = x.
Proof.
  intros Hm [->|[A B]]; unfold snap.
  - destruct (_ || _); reflexivity.
  - assert (E : EPS > 0) by (unfold EPS; lra).
    replace (Rltb (Rabs x) EPS) with false by (symmetry; apply Rltb_false; lra).
    rewrite orb_false_r. replace (Rltb (Rabs (x / m)) EPS) with false; [reflexivity|].
    symmetry; apply Rltb_false. unfold Rdiv. rewrite Rabs_mult, Rabs_inv, (Rabs_right m) by lra.
    apply Rmult_le_reg_r with m; [lra|]. rewrite Rmult_assoc, Rinv_l by lra. lra.
Qed.
(** dc_max bounds every coordinate and, if not 0, is one of them *)
Definition scoords (al : R) (s : station) : list R := [sX s - al; set_ s; sq s].
Lemma dc_max_bound al l s x : In s l -> In x (scoords al s) -> Rabs x <= dc_max al l.
Proof.
  induction l as [|t l IH]; [intros []|]. cbn [dc_max fold_right]. fold (dc_max al l).
  assert (M := Rmax_l). assert (N := Rmax_r).
  intros [<-|I] [<-|[<-|[<-|[]]]].
  - apply M.
  - eapply Rle_trans; [|apply N]. apply M.
  - eapply Rle_trans; [|apply N]. eapply Rle_trans; [|apply N]. apply M.
  - eapply Rle_trans; [|apply N]. eapply Rle_trans; [|apply N]. eapply Rle_trans; [|apply N].
    apply IH; [exact I|left; reflexivity].
  - eapply Rle_trans; [|apply N]. eapply Rle_trans; [|apply N]. eapply Rle_trans; [|apply N].
    apply IH; [exact I|right; left; reflexivity].
  - eapply Rle_trans; [|apply N]. eapply Rle_trans; [|apply N]. eapply Rle_trans; [|apply N].
    apply IH; [exact I|right; right; left; reflexivity].
Qed.
Lemma dc_max_attained al l c : 0 <= c -> (forall s x, In s l -> In x (scoords al s) -> Rabs x <= c) -> dc_max al l <= c.
Proof.
  intros Hc. induction l as [|t l IH]; intros H; cbn [dc_max fold_right]; [exact Hc|]. fold (dc_max al l).
  repeat apply Rmax_lub; try (eapply H; [left; reflexivity|cbn; tauto]).
  apply IH. intros s x I J. eapply H; [right; exact I|exact J].
Qed.
Definition clear_st (al : R) (l : list station) : Prop :=
  forall s x, In s l -> In x (scoords al s) -> x = 0 \/
    (EPS <= Rabs x /\ forall s' y, In s' l -> In y (scoords al s') -> EPS * Rabs y <= Rabs x).
Lemma snap_clear al l s x : clear_st al l -> In s l -> In x (scoords al s) -> snap (dc_max al l) x = x.
Proof.
  intros C I J. apply snap_id; [eapply dc_max_bound; eassumption|].
  destruct (C s x I J) as [Z|[A B]]; [left; exact Z|right]. split; [exact A|].
  assert (E : EPS > 0) by (unfold EPS; lra).
  assert (D : dc_max al l <= Rabs x / EPS).
  { apply dc_max_attained.
    - apply Rle_mult_inv_pos; [apply Rabs_pos|exact E].
    - intros s' y I' J'. apply Rmult_le_reg_l with EPS; [exact E|].
      replace (EPS * (Rabs x / EPS)) with (Rabs x) by (field; lra). eapply B; eassumption. }
  apply Rmult_le_compat_l with (r := EPS) in D; [|lra].
  replace (EPS * (Rabs x / EPS)) with (Rabs x) in D by (field; lra). exact D.
Qed.
Lemma snap_station_clear al l : clear_st al l -> map (snap_station (dc_max al l)) l = l.
Proof.
  intros C. rewrite <- (map_id l) at 3. apply map_ext_in. intros s I. unfold snap_station.
  rewrite (snap_clear al l s (set_ s) C I), (snap_clear al l s (sq s) C I) by (cbn; tauto). destruct s; reflexivity.
Qed.

(** ** one corner *)
Section Corner.
Variables alp3 sd cd al1 al2 aw1 aw2 d1 d2 : R.
(** the checks pass at the station *)
Definition st_ok (al : R) (s : station) : bool :=
  let xi := sX s - al in
  negb (Reqb (c2_r xi (set_ s) (sq s)) 0) &&
  negb (Rltb (c2_r xi (set_ s) (sq s) + set_ s) tiny) &&
  negb (andb (Reqb (sq s) 0) (orb (andb (jxi al1 al2 s) (Reqb (set_ s) 0)) (andb (jet aw1 aw2 s) (Reqb xi 0)))) &&
  negb (Rltb (c2_rd sd cd xi (set_ s) (sq s)) tiny).
(** the contribution of the corner *)
Definition du_tot (xi et q : R) : R * R * R :=
  rot_du sd cd (add3 (du_strike alp3 sd cd d1 xi et q) (du_dip alp3 sd cd d2 xi et q)).
Definition expand (m : list (R * R * R)) : list (R * R * R) :=
  match m with [x] => [x; x; x] | _ => m end.
Definition zero3 : R * R * R := (0, 0, 0).
(** u holds the sums so far *)
Definition rep (u : disp) (acc : list (R * R * R)) : Prop :=
  (u = Vec 0 0 0 /\ acc = map (fun _ => zero3) acc) \/ u = Mat (expand acc).
Definition sgn3 (minus : bool) (d : R * R * R) : R * R * R := if minus then neg3 d else d.
Lemma tri (a b c a' b' c' : R) : a = a' -> b = b' -> c = c' -> (a, b, c) = (a', b', c').
Proof. intros -> -> ->. reflexivity. Qed.
Lemma strike0 xi et q : du_strike alp3 sd cd 0 xi et q = zero3.
Proof. unfold du_strike, zero3. replace (0 / PI2) with 0 by (unfold Rdiv; ring). cbv zeta. rewrite !Rmult_0_r. reflexivity. Qed.
Lemma dip0 xi et q : du_dip alp3 sd cd 0 xi et q = zero3.
Proof. unfold du_dip, zero3. replace (0 / PI2) with 0 by (unfold Rdiv; ring). cbv zeta. rewrite !Rmult_0_r. reflexivity. Qed.
Lemma add30 x : add3 x zero3 = x.
Proof. destruct x as [[a b] c]. unfold add3, zero3. apply tri; ring. Qed.
Lemma add03 x : add3 zero3 x = x.
Proof. destruct x as [[a b] c]. unfold add3, zero3. apply tri; ring. Qed.
Lemma tot_no_dip xi et q : d2 = 0 -> du_tot xi et q = rot_du sd cd (du_strike alp3 sd cd d1 xi et q).
Proof. intros E. unfold du_tot. rewrite E, dip0, add30. reflexivity. Qed.
Lemma tot_no_strike xi et q : d1 = 0 -> du_tot xi et q = rot_du sd cd (du_dip alp3 sd cd d2 xi et q).
Proof. intros E. unfold du_tot. rewrite E, strike0, add03. reflexivity. Qed.
Lemma addc0 x : addc x 0 = x.
Proof. destruct x as [[a b] c]. unfold addc. apply tri; ring. Qed.

Lemma dub_lemma l al : d1 <> 0 \/ d2 <> 0 -> length l = 1%nat \/ length l = 3%nat ->
  let dv s := du_tot (sX s - al) (set_ s) (sq s) in
  exists dub,
  (if Reqb d2 0 then Ok (if Reqb d1 0 then Vec 0 0 0 else Mat (map (fun s => du_strike alp3 sd cd d1 (sX s - al) (set_ s) (sq s)) l))
   else add_disp (if Reqb d1 0 then Vec 0 0 0 else Mat (map (fun s => du_strike alp3 sd cd d1 (sX s - al) (set_ s) (sq s)) l))
          (Mat (map (fun s => du_dip alp3 sd cd d2 (sX s - al) (set_ s) (sq s)) l))) = Ok dub /\
  (map_disp (rot_du sd cd) dub = Mat (map dv l) \/ map_disp (rot_du sd cd) dub = Mat (expand (map dv l))).
Proof.
  intros D L dv.
  destruct (Reqb d2 0) eqn:E2.
  - apply Reqb_true in E2. destruct (Reqb d1 0) eqn:E1; [apply Reqb_true in E1; tauto|].
    eexists; split; [reflexivity|]. left. cbn. f_equal. rewrite map_map. apply map_ext. intros s. unfold dv. now rewrite tot_no_dip.
  - destruct (Reqb d1 0) eqn:E1.
    + apply Reqb_true in E1. unfold dv.
      destruct l as [|s [|t [|w [|? ?]]]]; cbn in L; try lia; cbn [map add_disp add_mat_vec];
        (eexists; split; [reflexivity|]; right; cbn [map_disp map expand]; rewrite !addc0, !tot_no_strike by exact E1; reflexivity).
    + destruct l as [|s [|t [|w [|? ?]]]]; cbn in L; try lia; cbn [map add_disp List.length Nat.eqb combine fst snd];
        (eexists; split; [reflexivity|]; left; reflexivity).
Qed.

Lemma existsb_ext_in {A} (f g : A -> bool) l : (forall x, In x l -> f x = g x) -> existsb f l = existsb g l.
Proof.
  induction l as [|x l IH]; intros H; [reflexivity|]. cbn. rewrite (H x (or_introl eq_refl)), IH; [reflexivity|].
  intros y I. apply H. now right.
Qed.
Definition chk (al : R) (l : list station) : option exn :=
  let xi s := sX s - al in
  if existsb (fun s => Reqb (c2_r (xi s) (set_ s) (sq s)) 0) l then Some OtherError
  else if existsb (fun s => Rltb (c2_r (xi s) (set_ s) (sq s) + set_ s) tiny) l then Some (format_exn (List.length l))
  else if existsb (fun s => andb (Reqb (sq s) 0)
          (orb (andb (jxi al1 al2 s) (Reqb (set_ s) 0)) (andb (jet aw1 aw2 s) (Reqb (xi s) 0)))) l then Some OtherError
  else if existsb (fun s => Rltb (c2_rd sd cd (xi s) (set_ s) (sq s)) tiny) l then Some (format_exn (List.length l))
  else None.
Lemma existsb_or {A} (f : A -> bool) l : existsb f l = negb (forallb (fun x => negb (f x)) l).
Proof. induction l as [|x l IH]; [reflexivity|]. cbn. rewrite IH. destruct (f x); reflexivity. Qed.
Lemma forallb_and {A} (f g : A -> bool) l : forallb (fun x => f x && g x) l = forallb f l && forallb g l.
Proof. induction l as [|x l IH]; [reflexivity|]. cbn. rewrite IH. destruct (f x), (g x), (forallb f l); reflexivity. Qed.
Lemma chk_spec al l : match chk al l with None => forallb (st_ok al) l = true | Some _ => forallb (st_ok al) l = false end.
Proof.
  unfold chk, st_ok. cbv zeta. rewrite !forallb_and, !existsb_or.
  repeat match goal with |- context [forallb ?f l] => destruct (forallb f l) end; reflexivity.
Qed.
Lemma corner_chk al minus u l : l <> [] -> clear_st al l ->
  corner alp3 sd cd al1 al2 aw1 aw2 d1 d2 al minus u l =
  match chk al l with
  | Some e => Raise e
  | None =>
    rbind (if Reqb d2 0 then Ok (if Reqb d1 0 then Vec 0 0 0 else Mat (map (fun s => du_strike alp3 sd cd d1 (sX s - al) (set_ s) (sq s)) l))
      else add_disp (if Reqb d1 0 then Vec 0 0 0 else Mat (map (fun s => du_strike alp3 sd cd d1 (sX s - al) (set_ s) (sq s)) l))
          (Mat (map (fun s => du_dip alp3 sd cd d2 (sX s - al) (set_ s) (sq s)) l)))
      (fun dub =>
        let du := map_disp (rot_du sd cd) dub in
        rbind (add_disp (if minus then map_disp neg3 du else du) u)
          (fun u => Ok (l, u)))
  end.
Proof.
  intros N C. unfold corner. destruct l as [|s0 r] eqn:El; [congruence|]. rewrite <- El in *. cbv zeta.
  rewrite (snap_station_clear al l C).
  assert (X : forall s, In s l -> snap (dc_max al l) (sX s - al) = sX s - al).
  { intros s I. apply (snap_clear al l s); [exact C|exact I|cbn; tauto]. }
  rewrite (existsb_ext_in _ (fun s => Reqb (c2_r (sX s - al) (set_ s) (sq s)) 0) l) by (intros s I; now rewrite X).
  rewrite (existsb_ext_in (fun s => Rltb (c2_r (snap (dc_max al l) (sX s - al)) (set_ s) (sq s) + set_ s) tiny)
    (fun s => Rltb (c2_r (sX s - al) (set_ s) (sq s) + set_ s) tiny) l) by (intros s I; now rewrite X).
  rewrite (existsb_ext_in (fun s => Reqb (sq s) 0 && (jxi al1 al2 s && Reqb (set_ s) 0 || jet aw1 aw2 s && Reqb (snap (dc_max al l) (sX s - al)) 0))
    (fun s => Reqb (sq s) 0 && (jxi al1 al2 s && Reqb (set_ s) 0 || jet aw1 aw2 s && Reqb (sX s - al) 0)) l) by (intros s I; now rewrite X).
  rewrite (existsb_ext_in (fun s => Rltb (c2_rd sd cd (snap (dc_max al l) (sX s - al)) (set_ s) (sq s)) tiny)
    (fun s => Rltb (c2_rd sd cd (sX s - al) (set_ s) (sq s)) tiny) l) by (intros s I; now rewrite X).
  rewrite (map_ext_in (fun s => du_strike alp3 sd cd d1 (snap (dc_max al l) (sX s - al)) (set_ s) (sq s))
    (fun s => du_strike alp3 sd cd d1 (sX s - al) (set_ s) (sq s)) l) by (intros s I; now rewrite X).
  rewrite (map_ext_in (fun s => du_dip alp3 sd cd d2 (snap (dc_max al l) (sX s - al)) (set_ s) (sq s))
    (fun s => du_dip alp3 sd cd d2 (sX s - al) (set_ s) (sq s)) l) by (intros s I; now rewrite X).
  unfold chk. cbv zeta.
  repeat match goal with |- context [existsb ?f l] => destruct (existsb f l) end; reflexivity.
Qed.
Lemma corner_ok al minus u acc l :
  d1 <> 0 \/ d2 <> 0 -> length l = 1%nat \/ length l = 3%nat -> length acc = length l -> rep u acc -> clear_st al l ->
  forallb (st_ok al) l = true ->
  corner alp3 sd cd al1 al2 aw1 aw2 d1 d2 al minus u l =
  Ok (l, Mat (expand (map (fun p => add3 (sgn3 minus (du_tot (sX (fst p) - al) (set_ (fst p)) (sq (fst p)))) (snd p)) (combine l acc)))).
Proof.
  intros D L LA Rp C F.
  rewrite corner_chk; [|intros ->; destruct L; discriminate|exact C].
  pose proof (chk_spec al l) as K. rewrite F in K. destruct (chk al l); [discriminate|]. clear K.
  destruct (dub_lemma l al D L) as (dub & -> & H). cbn [rbind]. cbv zeta in H |- *.
  set (dv := fun s => du_tot (sX s - al) (set_ s) (sq s)) in *.
  assert (A : (if minus then map_disp neg3 (map_disp (rot_du sd cd) dub) else map_disp (rot_du sd cd) dub) = Mat (map (fun s => sgn3 minus (dv s)) l) \/
    (if minus then map_disp neg3 (map_disp (rot_du sd cd) dub) else map_disp (rot_du sd cd) dub) = Mat (expand (map (fun s => sgn3 minus (dv s)) l))).
  { destruct H as [-> | ->]; [left|right]; destruct minus; cbn [map_disp sgn3]; rewrite ?map_map; try reflexivity.
    destruct L; destruct l as [|s [|t [|w [|? ?]]]]; try discriminate; reflexivity. }
  destruct A as [-> | ->]; unfold rep in Rp;
  (destruct l as [|s [|t [|w [|? ?]]]]; cbn in L; try lia);
  destruct acc as [|a1 [|a2 [|a3 [|? ?]]]]; try discriminate;
  (destruct Rp as [[-> Z]| ->]; [cbn in Z; try (injection Z as -> -> ->); try (injection Z as ->)|]);
  cbn [map expand add_disp add_mat_vec rbind List.length Nat.eqb combine fst snd];
  rewrite ?addc0, ?add30; reflexivity.
Qed.
Lemma corner_bad al minus u l :
  (length l = 1%nat \/ length l = 3%nat) -> clear_st al l -> forallb (st_ok al) l = false ->
  exists e, corner alp3 sd cd al1 al2 aw1 aw2 d1 d2 al minus u l = Raise e.
Proof.
  intros L C F. rewrite corner_chk; [|intros ->; destruct L; discriminate|exact C].
  pose proof (chk_spec al l) as K. rewrite F in K. destruct (chk al l) as [e|]; [|discriminate]. exists e. reflexivity.
Qed.
End Corner.

(** ** the four corners *)
Section Four.
Variables alp3 sd cd al1 al2 aw1 aw2 d1 d2 : R.
Definition st_at (aw : R) (P : R * R) : station := mkst (fst P) (snd P * cd) (snd P * cd - aw) (snd P * sd).
Definition ok4 (P : R * R) : bool :=
  st_ok sd cd al1 al2 aw1 aw2 al1 (st_at aw1 P) && st_ok sd cd al1 al2 aw1 aw2 al2 (st_at aw1 P) &&
  st_ok sd cd al1 al2 aw1 aw2 al1 (st_at aw2 P) && st_ok sd cd al1 al2 aw1 aw2 al2 (st_at aw2 P).
Definition du_at (al aw : R) (P : R * R) : R * R * R :=
  du_tot alp3 sd cd d1 d2 (fst P - al) (snd P * cd - aw) (snd P * sd).
Definition val4 (P : R * R) : R * R * R :=
  add3 (du_at al2 aw2 P) (add3 (neg3 (du_at al1 aw2 P)) (add3 (neg3 (du_at al2 aw1 P)) (du_at al1 aw1 P))).
Lemma clear_of B al aw : nothing_rounded sd cd B al1 al2 aw1 aw2 -> In al [al1; al2] -> In aw [aw1; aw2] ->
  clear_st al (map (st_at aw) B).
Proof.
  intros N Ia Iw s x Is Ix. apply in_map_iff in Is. destruct Is as (P & <- & IP).
  destruct (N P al aw x IP Ia Iw Ix) as [Z|[A H]]; [left; exact Z|right]. split; [exact A|].
  intros s' y Is' Iy. apply in_map_iff in Is'. destruct Is' as (P' & <- & IP'). exact (H P' y IP' Iy).
Qed.
Lemma start1 B : map (start_row aw1) (map (init_station sd cd) B) = map (st_at aw1) B.
Proof. rewrite map_map. reflexivity. Qed.
Lemma start2 B : map (start_row aw2) (map (st_at aw1) B) = map (st_at aw2) B.
Proof. rewrite map_map. reflexivity. Qed.
Definition run (B : list (R * R)) : result disp :=
  let go := corner alp3 sd cd al1 al2 aw1 aw2 d1 d2 in
  rbind (go al1 false (Vec 0 0 0) (map (start_row aw1) (map (init_station sd cd) B))) (fun r =>
  rbind (go al2 true (snd r) (fst r)) (fun r =>
  rbind (go al1 true (snd r) (map (start_row aw2) (fst r))) (fun r =>
  rbind (go al2 false (snd r) (fst r)) (fun r => Ok (snd r))))).
Lemma combine_step {A} (f : A -> R * R * R) (g : A -> R * R * R) (h : A -> station) (k : station -> R * R * R) B :
  (forall P, k (h P) = f P) ->
  map (fun p => add3 (k (fst p)) (snd p)) (combine (map h B) (map g B)) = map (fun P => add3 (f P) (g P)) B.
Proof. intros E. induction B as [|P B IH]; [reflexivity|]. cbn. rewrite IH, E. reflexivity. Qed.
Lemma forallb_map {A C} (f : C -> bool) (g : A -> C) l : forallb f (map g l) = forallb (fun x => f (g x)) l.
Proof. induction l as [|x l IH]; [reflexivity|]. cbn. now rewrite IH. Qed.
Lemma run_spec B : d1 <> 0 \/ d2 <> 0 -> length B = 1%nat \/ length B = 3%nat ->
  nothing_rounded sd cd B al1 al2 aw1 aw2 ->
  if forallb ok4 B then run B = Ok (Mat (expand (map val4 B))) else exists e, run B = Raise e.
Proof.
  intros D L N. unfold run. cbv zeta. rewrite start1.
  assert (L' : forall aw, length (map (st_at aw) B) = 1%nat \/ length (map (st_at aw) B) = 3%nat) by (intros aw; now rewrite map_length).
  assert (C : forall al aw, In al [al1; al2] -> In aw [aw1; aw2] -> clear_st al (map (st_at aw) B)) by (intros; now apply clear_of).
  unfold ok4. rewrite !forallb_and.
  destruct (forallb (fun P => st_ok sd cd al1 al2 aw1 aw2 al1 (st_at aw1 P)) B) eqn:F1.
  2:{ cbn [andb]. destruct (corner_bad alp3 sd cd al1 al2 aw1 aw2 d1 d2 al1 false (Vec 0 0 0) (map (st_at aw1) B)) as (e & ->); auto.
      - apply C; cbn; auto. - rewrite forallb_map. exact F1. - exists e; reflexivity. }
  rewrite (corner_ok alp3 sd cd al1 al2 aw1 aw2 d1 d2 al1 false (Vec 0 0 0) (map (fun _ => zero3) B)); auto.
  2:{ now rewrite !map_length. }
  2:{ left. split; [reflexivity|]. now rewrite map_map. }
  2:{ apply C; cbn; auto. } 2:{ rewrite forallb_map. exact F1. }
  cbn [rbind fst snd]. cbn [sgn3].
  rewrite (combine_step (du_at al1 aw1) (fun _ => zero3) (st_at aw1) (fun s => du_tot alp3 sd cd d1 d2 (sX s - al1) (set_ s) (sq s))) by reflexivity.
  rewrite (map_ext (fun P => add3 (du_at al1 aw1 P) zero3) (du_at al1 aw1)) by (intros; apply add30).
  destruct (forallb (fun P => st_ok sd cd al1 al2 aw1 aw2 al2 (st_at aw1 P)) B) eqn:F2.
  2:{ cbn [andb]. destruct (corner_bad alp3 sd cd al1 al2 aw1 aw2 d1 d2 al2 true (Mat (expand (map (du_at al1 aw1) B))) (map (st_at aw1) B)) as (e & ->); auto.
      - apply C; cbn; auto. - rewrite forallb_map. exact F2. - exists e; reflexivity. }
  rewrite (corner_ok alp3 sd cd al1 al2 aw1 aw2 d1 d2 al2 true _ (map (du_at al1 aw1) B)); auto.
  2:{ now rewrite !map_length. }
  2:{ right. reflexivity. }
  2:{ apply C; cbn; auto. } 2:{ rewrite forallb_map. exact F2. }
  cbn [rbind fst snd]. cbn [sgn3].
  rewrite (combine_step (fun P => neg3 (du_at al2 aw1 P)) (du_at al1 aw1) (st_at aw1) (fun s => neg3 (du_tot alp3 sd cd d1 d2 (sX s - al2) (set_ s) (sq s)))) by reflexivity.
  rewrite start2.
  destruct (forallb (fun P => st_ok sd cd al1 al2 aw1 aw2 al1 (st_at aw2 P)) B) eqn:F3.
  2:{ cbn [andb]. match goal with |- context [corner _ _ _ _ _ _ _ _ _ _ _ ?u _] =>
        destruct (corner_bad alp3 sd cd al1 al2 aw1 aw2 d1 d2 al1 true u (map (st_at aw2) B)) as (e & ->); auto end.
      - apply C; cbn; auto. - rewrite forallb_map. exact F3. - exists e; reflexivity. }
  rewrite (corner_ok alp3 sd cd al1 al2 aw1 aw2 d1 d2 al1 true _ (map (fun P => add3 (neg3 (du_at al2 aw1 P)) (du_at al1 aw1 P)) B)); auto.
  2:{ now rewrite !map_length. }
  2:{ right. reflexivity. }
  2:{ apply C; cbn; auto. } 2:{ rewrite forallb_map. exact F3. }
  cbn [rbind fst snd]. cbn [sgn3].
  rewrite (combine_step (fun P => neg3 (du_at al1 aw2 P)) (fun P => add3 (neg3 (du_at al2 aw1 P)) (du_at al1 aw1 P)) (st_at aw2) (fun s => neg3 (du_tot alp3 sd cd d1 d2 (sX s - al1) (set_ s) (sq s)))) by reflexivity.
  destruct (forallb (fun P => st_ok sd cd al1 al2 aw1 aw2 al2 (st_at aw2 P)) B) eqn:F4.
  2:{ cbn [andb]. match goal with |- context [corner _ _ _ _ _ _ _ _ _ _ _ ?u _] =>
        destruct (corner_bad alp3 sd cd al1 al2 aw1 aw2 d1 d2 al2 false u (map (st_at aw2) B)) as (e & ->); auto end.
      - apply C; cbn; auto. - rewrite forallb_map. exact F4. - exists e; reflexivity. }
  rewrite (corner_ok alp3 sd cd al1 al2 aw1 aw2 d1 d2 al2 false _ (map (fun P => add3 (neg3 (du_at al1 aw2 P)) (add3 (neg3 (du_at al2 aw1 P)) (du_at al1 aw1 P))) B)); auto.
  2:{ now rewrite !map_length. }
  2:{ right. reflexivity. }
  2:{ apply C; cbn; auto. } 2:{ rewrite forallb_map. exact F4. }
  cbn [rbind fst snd andb]. cbn [sgn3].
  rewrite (combine_step (du_at al2 aw2) (fun P => add3 (neg3 (du_at al1 aw2 P)) (add3 (neg3 (du_at al2 aw1 P)) (du_at al1 aw1 P))) (st_at aw2) (fun s => du_tot alp3 sd cd d1 d2 (sX s - al2) (set_ s) (sq s))) by reflexivity.
  reflexivity.
Qed.
End Four.
Lemma dc3d3_run alpha B dip al1 al2 aw1 aw2 d1 d2 sd cd : dip_consts dip = (sd, cd) ->
  dc3d3 alpha B dip al1 al2 aw1 aw2 d1 d2 = run ((1 - alpha) / alpha) sd cd al1 al2 aw1 aw2 d1 d2 B.
Proof. intros E. unfold dc3d3. rewrite E. reflexivity. Qed.
Lemma dip_consts_spec dip sd cd : dip_sin_cos (dip * pl8) sd cd <-> dip_consts dip = (sd, cd).
Proof.
  unfold dip_consts, dip_sin_cos. fold EPS. cbv zeta.
  assert (S := sin2_cos2 (dip * pl8)). unfold Rsqr in S.
  destruct (Rltb (Rabs (cos (dip * pl8))) EPS) eqn:E.
  - apply Rltb_true in E.
    assert (Z : sin (dip * pl8) <> 0).
    { intros Z. rewrite Z in S. assert (Q : Rabs (cos (dip * pl8)) * Rabs (cos (dip * pl8)) = 1).
      { rewrite <- Rabs_mult. rewrite Rabs_right; nra. }
      assert (P := Rabs_pos (cos (dip * pl8))). unfold EPS in E. nra. }
    destruct (Rltb 0 (sin (dip * pl8))) eqn:E1; [apply Rltb_true in E1|apply Rltb_false in E1; destruct (Rltb (sin (dip * pl8)) 0) eqn:E2; [apply Rltb_true in E2|apply Rltb_false in E2; lra]];
    split; intros H.
    + destruct H as [[H _]|(_ & -> & [[_ ->]|[H _]])]; [lra|reflexivity|lra].
    + injection H as <- <-. right. repeat split; auto.
    + destruct H as [[H _]|(_ & -> & [[H _]|[_ ->]])]; [lra|lra|reflexivity].
    + injection H as <- <-. right. repeat split; auto.
  - apply Rltb_false in E. split; intros H.
    + destruct H as [(_ & -> & ->)|[H _]]; [reflexivity|lra].
    + injection H as <- <-. left. auto.
Qed.
Lemma sd_cd_1 dip sd cd : dip_sin_cos (dip * pl8) sd cd -> sd * sd + cd * cd = 1.
Proof.
  intros [(_ & -> & ->)|(_ & -> & [[_ ->]|[_ ->]])]; [|ring|ring].
  assert (S := sin2_cos2 (dip * pl8)). unfold Rsqr in S. exact S.
Qed.
