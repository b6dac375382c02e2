(** Model of geoana/earthquake/oksar.py: Oksar.simulation_grid (l.1276-1296),
    Oksar.displacement_vector (l.1298-1353), Oksar._dc3d3 (l.1355-1532) and the part of
    Oksar.plot_displacement that runs before anything is drawn (l.1556-1577).
    Floats are real numbers; every division by zero in _dc3d3 is overwritten by the code
    before it is used, so real division by zero never reaches a result. *)
From Coq Require Import Reals List Bool Arith ZArith String Lra.
From Verif Require Import Numpy PyVal Model_Setters.
Import ListNotations.
Open Scope R_scope.

(** *** arrays of displacements *)
(** l.1362 u, l.1496-1523 du: an array of shape (3,), or of shape (3, n) given by its
    list of columns *)
Inductive disp : Type :=
| Vec (a b c : R)
| Mat (cols : list (R * R * R)).
Definition addc (x : R * R * R) (a : R) : R * R * R := let '(p, q, r) := x in (p + a, q + a, r + a).
Definition add3 (x y : R * R * R) : R * R * R :=
  let '(p, q, r) := x in let '(p', q', r') := y in (p + p', q + q', r + r').
(** (3, n) + (3,): numpy lines the 3 up with the n columns *)
Definition add_mat_vec (m : list (R * R * R)) (a b c : R) : result disp :=
  match m with
  | [x] => Ok (Mat [addc x a; addc x b; addc x c])
  | [x; y; z] => Ok (Mat [addc x a; addc y b; addc z c])
  | _ => Raise ValueError
  end.
(** numpy addition of two such arrays *)
Definition add_disp (d u : disp) : result disp :=
  match d, u with
  | Vec a b c, Vec a' b' c' => Ok (Vec (a + a') (b + b') (c + c'))
  | Mat m, Vec a b c => add_mat_vec m a b c
  | Vec a b c, Mat m => add_mat_vec m a b c
  | Mat m, Mat m' =>
      if Nat.eqb (List.length m) (List.length m') then Ok (Mat (map (fun p => add3 (fst p) (snd p)) (combine m m')))
      else match m, m' with
           | [x], _ => Ok (Mat (map (add3 x) m'))
           | _, [x] => Ok (Mat (map (fun y => add3 y x) m))
           | _, _ => Raise ValueError
           end
  end.
(** a function of the three rows, row by row *)
Definition map_disp (f : R * R * R -> R * R * R) (d : disp) : disp :=
  match d with
  | Vec a b c => let '(x, y, z) := f (a, b, c) in Vec x y z
  | Mat m => Mat (map f m)
  end.

(** *** _dc3d3 *)
(** l.1360, 1359, 1369 *)
Definition EPS : R := 1 / 1000000.
Definition PI2 : R := 6283185307179586 / 1000000000000000.
Definition pl8 : R := 17453292519943 / 1000000000000000.
(** l.1370-1379: (c0_sd, c0_cd) *)
Definition dip_consts (dip : R) : R * R :=
  let sd := sin (dip * pl8) in
  let cd := cos (dip * pl8) in
  if Rltb (Rabs cd) EPS then
    (if Rltb 0 sd then 1 else if Rltb sd 0 then -1 else sd, 0)
  else (sd, cd).

(** One station during the loop: X, p, and the arrays et and q that the loop overwrites
    in place. *)
Record station : Type := mkst { sX : R; sp : R; set_ : R; sq : R }.
(** l.1386-1387 (et is assigned at the start of each outer iteration) *)
Definition init_station (sd cd : R) (P : R * R) : station :=
  mkst (fst P) (snd P * cd) 0 (snd P * sd).
(** l.1389-1390 *)
Definition jxi (al1 al2 : R) (s : station) : bool := Rleb ((sX s - al1) * (sX s - al2)) 0.
Definition jet (aw1 aw2 : R) (s : station) : bool := Rleb ((sp s - aw1) * (sp s - aw2)) 0.

(** l.1410: the largest absolute value of xi, et and q over all the stations *)
Definition dc_max (al : R) (l : list station) : R :=
  fold_right (fun s m => Rmax (Rabs (sX s - al)) (Rmax (Rabs (set_ s)) (Rmax (Rabs (sq s)) m))) 0 l.
(** l.1414-1418: entries that are small, or small against dc_max, become 0 *)
Definition snap (m x : R) : R := if orb (Rltb (Rabs (x / m)) EPS) (Rltb (Rabs x) EPS) then 0 else x.
Definition snap_station (m : R) (s : station) : station :=
  mkst (sX s) (sp s) (snap m (set_ s)) (snap m (sq s)).

(** l.1423 *)
Definition c2_r (xi et q : R) : R := sqrt (xi * xi + et * et + q * q).
(** l.1429-1430 *)
Definition c2_y (sd cd et q : R) : R := et * cd + q * sd.
Definition c2_d (sd cd et q : R) : R := et * sd - q * cd.
(** l.1431-1432 *)
Definition c2_tt (xi et q : R) : R := if Reqb q 0 then 0 else atan (xi * et / (q * c2_r xi et q)).
(** l.1434-1436 *)
Definition c2_x11 (xi et q : R) : R :=
  if andb (andb (Rltb xi 0) (Reqb q 0)) (Reqb et 0) then 0
  else 1 / (c2_r xi et q * (c2_r xi et q + xi)).
(** l.1438, 1444-1456 *)
Definition edge_case (xi et q : R) : bool := andb (andb (Rltb et 0) (Reqb q 0)) (Reqb xi 0).
Definition c2_ale (xi et q : R) : R :=
  if edge_case xi et q then - ln (c2_r xi et q - et) else ln (c2_r xi et q + et).
Definition c2_y11 (xi et q : R) : R :=
  if edge_case xi et q then 0 else 1 / (c2_r xi et q * (c2_r xi et q + et)).
(** l.1476 *)
Definition c2_rd (sd cd xi et q : R) : R := c2_r xi et q + c2_d sd cd et q.
(** l.1482-1499 *)
Definition ai4 (sd cd xi et q : R) : R :=
  let rd := c2_rd sd cd xi et q in
  if Reqb cd 0 then xi * c2_y sd cd et q / (rd * rd) / 2
  else if Reqb xi 0 then 0
  else
    let xx := sqrt (xi * xi + q * q) in
    let r := c2_r xi et q in
    1 / (cd * cd) * (xi / rd * (sd * cd) +
      2 * atan ((et * (xx + q * cd) + xx * (r + xx) * sd) / (xi * (r + xx) * cd))).
Definition ai3 (sd cd xi et q : R) : R :=
  let rd := c2_rd sd cd xi et q in
  let y := c2_y sd cd et q in
  if Reqb cd 0 then (et / rd + y * q / (rd * rd) - c2_ale xi et q) / 2
  else (y * cd / rd - c2_ale xi et q + sd * ln rd) / (cd * cd).
(** l.1501-1502 *)
Definition ai1 (sd cd xi et q : R) : R := - xi / c2_rd sd cd xi et q * cd - ai4 sd cd xi et q * sd.
Definition ai2 (sd cd xi et q : R) : R := ln (c2_rd sd cd xi et q) + ai3 sd cd xi et q * sd.

(** l.1508-1512 *)
Definition du_strike (alp3 sd cd disl1 : R) (xi et q : R) : R * R * R :=
  let k := disl1 / PI2 in
  let qy := q * c2_y11 xi et q in
  (((- (xi * qy)) - c2_tt xi et q - alp3 * ai1 sd cd xi et q * sd) * k,
   ((- (q / c2_r xi et q)) + alp3 * c2_y sd cd et q / c2_rd sd cd xi et q * sd) * k,
   (q * qy - alp3 * ai2 sd cd xi et q * sd) * k).
(** l.1517-1521 *)
Definition du_dip (alp3 sd cd disl2 : R) (xi et q : R) : R * R * R :=
  let k := disl2 / PI2 in
  let qx := q * c2_x11 xi et q in
  (((- (q / c2_r xi et q)) + alp3 * ai3 sd cd xi et q * (sd * cd)) * k,
   ((- (et * qx)) - c2_tt xi et q - alp3 * xi / c2_rd sd cd xi et q * (sd * cd)) * k,
   (q * qx + alp3 * ai4 sd cd xi et q * (sd * cd)) * k).
(** l.1525-1527 *)
Definition rot_du (sd cd : R) (d : R * R * R) : R * R * R :=
  let '(x, y, z) := d in (x, y * cd - z * sd, y * sd + z * cd).
Definition neg3 (d : R * R * R) : R * R * R := let '(x, y, z) := d in (- x, - y, - z).

(** raise Exception('... %f ...' % arrays), l.1440, 1478: only arrays with one entry can be
    formatted with %f, for others the formatting itself raises TypeError *)
Definition format_exn (n : nat) : exn := if Nat.eqb n 1 then OtherError else TypeError.
Definition tiny : R := 1 / 100000000000000.

(** l.1403-1531: one corner of the fault; gives back the overwritten arrays and the new u *)
Definition corner (alp3 sd cd al1 al2 aw1 aw2 disl1 disl2 al : R) (minus : bool)
    (u : disp) (l : list station) : result (list station * disp) :=
  match l with
  | [] => Raise ValueError
  | _ =>
      let m := dc_max al l in
      let xi s := snap m (sX s - al) in
      let l := map (snap_station m) l in
      if existsb (fun s => Reqb (c2_r (xi s) (set_ s) (sq s)) 0) l then Raise OtherError
      else if existsb (fun s => Rltb (c2_r (xi s) (set_ s) (sq s) + set_ s) tiny) l
      then Raise (format_exn (List.length l))
      else if existsb (fun s => andb (Reqb (sq s) 0)
                (orb (andb (jxi al1 al2 s) (Reqb (set_ s) 0)) (andb (jet aw1 aw2 s) (Reqb (xi s) 0)))) l
      then Raise OtherError
      else if existsb (fun s => Rltb (c2_rd sd cd (xi s) (set_ s) (sq s)) tiny) l
      then Raise (format_exn (List.length l))
      else
        let strike :=
          if Reqb disl1 0 then Vec 0 0 0
          else Mat (map (fun s => du_strike alp3 sd cd disl1 (xi s) (set_ s) (sq s)) l) in
        rbind (if Reqb disl2 0 then Ok strike
               else add_disp strike (Mat (map (fun s => du_dip alp3 sd cd disl2 (xi s) (set_ s) (sq s)) l)))
          (fun dub =>
        let du := map_disp (rot_du sd cd) dub in
        rbind (add_disp (if minus then map_disp neg3 du else du) u)
          (fun u => Ok (l, u)))
  end.
(** l.1393-1397 *)
Definition start_row (aw : R) (s : station) : station := mkst (sX s) (sp s) (sp s - aw) (sq s).

(** l.1355-1532 *)
Definition dc3d3 (alpha : R) (P : list (R * R)) (dip al1 al2 aw1 aw2 disl1 disl2 : R) : result disp :=
  let alp3 := (1 - alpha) / alpha in
  let (sd, cd) := dip_consts dip in
  let go := corner alp3 sd cd al1 al2 aw1 aw2 disl1 disl2 in
  rbind (go al1 false (Vec 0 0 0) (map (start_row aw1) (map (init_station sd cd) P))) (fun r =>
  rbind (go al2 true (snd r) (fst r)) (fun r =>
  rbind (go al1 true (snd r) (map (start_row aw2) (fst r))) (fun r =>
  rbind (go al2 false (snd r) (fst r)) (fun r => Ok (snd r))))).

(** *** simulation_grid *)
(** np.linspace(0, 1, n) *)
Definition linspace01 (n : nat) : list R :=
  match n with
  | 0%nat => []
  | 1%nat => [0]
  | S m => map (fun k => INR k / INR m) (seq 0 n)
  end.
(** l.1287-1296; [V] is what self.V gives.  np.meshgrid puts the second axis first. *)
Definition grid (O U V : R * R) (n0 n1 : nat) : list (R * R) :=
  flat_map (fun t => map (fun s =>
     (fst O + (fst U * s + snd U * t), snd O + (fst V * s + snd V * t))) (linspace01 n0)) (linspace01 n1).

(** l.1310-1353; the values of the attributes are arguments, [sin (dip * DEG2RAD)] is not 0 *)
Record fault : Type := mkfault {
  f_center : R * R; f_strike : R; f_dip : R; f_rake : R; f_slip : R; f_length : R;
  f_top : R; f_bottom : R; f_beta : R; f_mu : R }.
(** what displacement_vector returns: np.stack of three arrays along a new last axis; the
    arrays are scalars when u has shape (3,), and have 3 entries when u has shape (3, n) *)
Inductive disp_out : Type :=
| Out1 (v : R * R * R)              (* shape (3,) *)
| OutN (rows : list (R * R * R)).   (* shape (k, 3) *)
(** u[..., j] of an array of shape (3, n): the j-th column, IndexError when there is none *)
Definition col (j : nat) (m : list (R * R * R)) : result (R * R * R) :=
  match nth_error m j with Some c => Ok c | None => Raise IndexError end.
Definition finish (ct st : R) (u : disp) : result disp_out :=
  match u with
  | Vec a b c => Ok (Out1 (ct * a + st * b, - st * a + ct * b, c))
  | Mat m =>
      rbind (col 0 m) (fun c0 => rbind (col 1 m) (fun c1 => rbind (col 2 m) (fun c2 =>
        let '(a0, b0, d0) := c0 in let '(a1, b1, d1) := c1 in let '(a2, b2, d2) := c2 in
        Ok (OutN [ (ct * a0 + st * a1, - st * a0 + ct * a1, a2);
                   (ct * b0 + st * b1, - st * b0 + ct * b1, b2);
                   (ct * d0 + st * d1, - st * d0 + ct * d1, d2) ]))))
  end.
Definition displacement (f : fault) (vec : list (R * R)) : result disp_out :=
  let alpha := (f_beta f + f_mu f) / (f_beta f + 2 * f_mu f) in
  let rrake := (f_rake f + 90) * pl8 in
  let sindip := sin (f_dip f * pl8) in
  let ud := f_slip f * cos rrake in
  let us := - f_slip f * sin rrake in
  let al2 := f_length f / 2 in
  let al1 := - al2 in
  let aw1 := f_top f / sindip in
  let aw2 := f_bottom f / sindip in
  let sstrike := (f_strike f + 90) * pl8 in
  let ct := cos sstrike in
  let st := sin sstrike in
  let XY P := (ct * (- fst (f_center f) + fst P) - st * (- snd (f_center f) + snd P),
               ct * (- snd (f_center f) + snd P) + st * (- fst (f_center f) + fst P)) in
  rbind (dc3d3 alpha (map XY vec) (- f_dip f) al1 al2 aw1 aw2 us ud) (finish ct st).

(** *** the properties of the object *)
Open Scope string_scope.
Section Obj.
Variable py : pyext.
(** l.1286-1296: the order in which the attributes are read.  [compute] stands for the
    arithmetic that follows. *)
Definition simulation_grid (compute : aval -> aval -> aval -> aval -> result (list (R * R))) : M (list (R * R)) :=
  sh <-- getattr (Oksar py) "" "shape" ;;
  o <-- getattr (Oksar py) "" "O" ;;
  u <-- getattr (Oksar py) "" "U" ;;
  v <-- getattr (Oksar py) "" "V" ;;
  lift (compute sh o u v).
(** l.1308: displacement_vector reads simulation_grid first *)
Definition displacement_vector compute (rest : list (R * R) -> M disp_out) : M disp_out :=
  vec <-- simulation_grid compute ;; rest vec.
(** l.1556-1577, eq = None or an EarthquakeInterferogram: U, shape, O are read for
    vectorNx, then self.V for vectorNy; [rest] is everything after that (an axes
    object may have been created before, nothing has been drawn) *)
Definition plot_displacement (rest : aval -> M aval) : M aval :=
  u <-- getattr (Oksar py) "" "U" ;;
  sh <-- getattr (Oksar py) "" "shape" ;;
  o <-- getattr (Oksar py) "" "O" ;;
  v <-- getattr (Oksar py) "" "V" ;;
  rest v.
End Obj.
