(** Model of EarthquakeInterferogram (geoana/earthquake/oksar.py): reading dates, laying out the
    raster, and the line-of-sight vectors. *)
From Coq Require Import Ascii String Reals List Arith Bool.
From Verif Require Import Numpy.
Import ListNotations.
Open Scope R_scope.
Open Scope list_scope.

(** ** dates (l.36-39) *)
Record datetime : Type := DT { year : nat; month : nat; day : nat; hour : nat; minute : nat; second : nat }.

(** datetime.strptime compiles the format to a regular expression (matched with backtracking and
    ignoring case, alternatives in the order given) and then requires the whole string to be
    used.  A piece of the expression maps a string to the list of its matches, in order.  Strings
    are ASCII. *)
Definition piece (V : Type) := string -> list (V * string).
Definition digit_val (c : ascii) : option nat :=
  let n := nat_of_ascii c in if ((48 <=? n) && (n <=? 57))%nat then Some (n - 48)%nat else None.
(** one digit between lo and hi *)
Definition dig (lo hi : nat) : piece nat := fun s =>
  match s with
  | String c s' => match digit_val c with Some d => if ((lo <=? d) && (d <=? hi))%nat then [(d, s')] else [] | None => [] end
  | EmptyString => []
  end.
Definition lower (c : ascii) : ascii :=
  let n := nat_of_ascii c in if ((65 <=? n) && (n <=? 90))%nat then ascii_of_nat (n + 32) else c.
(** a literal character *)
Definition lit (c : ascii) : piece unit := fun s =>
  match s with String c' s' => if Ascii.eqb (lower c) (lower c') then [(tt, s')] else [] | EmptyString => [] end.
Definition andthen {A B} (p : piece A) (q : A -> piece B) : piece B := fun s => flat_map (fun r => q (fst r) (snd r)) (p s).
Definition ret {A} (a : A) : piece A := fun s => [(a, s)].
Definition orelse {A} (p q : piece A) : piece A := fun s => p s ++ q s.
Definition two (p q : piece nat) : piece nat := andthen p (fun a => andthen q (fun b => ret (10 * a + b)%nat)).
(** %Y: \d\d\d\d *)
Definition pY : piece nat :=
  andthen (dig 0 9) (fun a => andthen (dig 0 9) (fun b => andthen (dig 0 9) (fun c => andthen (dig 0 9) (fun d =>
    ret (((a * 10 + b) * 10 + c) * 10 + d)%nat)))).
(** %m: 1[0-2]|0[1-9]|[1-9] *)
Definition pm : piece nat := orelse (two (dig 1 1) (dig 0 2)) (orelse (two (dig 0 0) (dig 1 9)) (dig 1 9)).
(** %d: 3[0-1]|[1-2]\d|0[1-9]|[1-9]| [1-9] *)
Definition pd : piece nat :=
  orelse (two (dig 3 3) (dig 0 1)) (orelse (two (dig 1 2) (dig 0 9)) (orelse (two (dig 0 0) (dig 1 9))
    (orelse (dig 1 9) (andthen (lit " ") (fun _ => dig 1 9))))).
(** %H: 2[0-3]|[0-1]\d|\d *)
Definition pH : piece nat := orelse (two (dig 2 2) (dig 0 3)) (orelse (two (dig 0 1) (dig 0 9)) (dig 0 9)).
(** %M: [0-5]\d|\d *)
Definition pM : piece nat := orelse (two (dig 0 5) (dig 0 9)) (dig 0 9).
(** %S: 6[0-1]|[0-5]\d|\d *)
Definition pS : piece nat := orelse (two (dig 6 6) (dig 0 1)) (orelse (two (dig 0 5) (dig 0 9)) (dig 0 9)).
(** '%Y/%m/%d' *)
Definition fmt_date : piece datetime :=
  andthen pY (fun y => andthen (lit "/") (fun _ => andthen pm (fun m => andthen (lit "/") (fun _ => andthen pd (fun d =>
    ret (DT y m d 0 0 0)))))).
(** '%Y-%m-%dT%H:%M:%SZ' *)
Definition fmt_iso : piece datetime :=
  andthen pY (fun y => andthen (lit "-") (fun _ => andthen pm (fun m => andthen (lit "-") (fun _ => andthen pd (fun d =>
  andthen (lit "T") (fun _ => andthen pH (fun h => andthen (lit ":") (fun _ => andthen pM (fun mi => andthen (lit ":") (fun _ =>
  andthen pS (fun s => andthen (lit "Z") (fun _ => ret (DT y m d h mi s))))))))))))).
(** the datetime constructor's checks *)
Definition leap (y : nat) : bool := ((y mod 4 =? 0) && (negb (y mod 100 =? 0) || (y mod 400 =? 0)))%nat.
Definition days_in_month (y m : nat) : nat :=
  match m with
  | 2 => if leap y then 29 else 28
  | 4 | 6 | 9 | 11 => 30
  | _ => 31
  end%nat.
Definition constructible (t : datetime) : bool :=
  ((1 <=? year t) && (year t <=? 9999) && (1 <=? month t) && (month t <=? 12) &&
   (1 <=? day t) && (day t <=? days_in_month (year t) (month t)) &&
   (hour t <=? 23) && (minute t <=? 59) && (second t <=? 59))%nat.
Definition strptime (fmt : piece datetime) (s : string) : result datetime :=
  match fmt s with
  | (t, EmptyString) :: _ => if constructible t then Ok t else Raise ValueError
  | _ => Raise ValueError
  end.
(** value.replace('-', '/') *)
Fixpoint slashes (s : string) : string :=
  match s with EmptyString => EmptyString | String c s' => String (if Ascii.eqb c "-" then "/"%char else c) (slashes s') end.
(** l.36-39 *)
Definition date_time_from_json (value : string) : result datetime :=
  if Nat.eqb (String.length value) 10 then strptime fmt_date (slashes value) else strptime fmt_iso value.
(** what is assigned: a datetime, a string, or something else *)
Inductive dateval : Type := VDate (t : datetime) | VString (s : string) | VOther.
(** l.606-615 (date1, date2, processed_date, event_date alike): the stored date after the
    assignment, or the TypeError *)
Definition date_setter (v : dateval) : result datetime :=
  match v with
  | VDate t => Ok t
  | VString s => match date_time_from_json s with Ok t => Ok t | Raise _ => Raise TypeError end
  | VOther => Raise TypeError
  end.

(** ** raster layout (l.662-686) *)
(** arrays live in memory; [None] is nan *)
Definition memory := nat -> list (option R).
Definition update (m : memory) (b : nat) (v : list (option R)) : memory := fun i => if Nat.eqb i b then v else m i.
(** a two-dimensional view of a buffer: extents and the position of entry (i, j) *)
Record view : Type := View { v_buf : nat; v_rows : nat; v_cols : nat; v_pos : nat -> nat -> nat }.
Definition vread (m : memory) (v : view) (i j : nat) : option R := nth (v_pos v i j) (m (v_buf v)) None.
(** in-place elementwise operation through a view *)
Definition set_nth {A} (l : list A) (n : nat) (x : A) : list A := firstn n l ++ match skipn n l with [] => [] | _ :: t => x :: t end.
Definition indices (v : view) : list (nat * nat) :=
  flat_map (fun i => map (fun j => (i, j)) (seq 0 (v_cols v))) (seq 0 (v_rows v)).
Definition vmap (f : option R -> option R) (v : view) (m : memory) : memory :=
  update m (v_buf v)
    (fold_left (fun b ij => set_nth b (v_pos v (fst ij) (snd ij)) (f (nth (v_pos v (fst ij) (snd ij)) (m (v_buf v)) None)))
       (indices v) (m (v_buf v))).
(** l.682: reshape(shape, order='F') of a one-dimensional array, .T and np.flipud are views *)
Definition reshapeF (b : nat) (n s0 s1 : nat) : result view :=
  if Nat.eqb n (s0 * s1) then Ok (View b s0 s1 (fun i j => (i + s0 * j)%nat)) else Raise ValueError.
Definition transpose (v : view) : view := View (v_buf v) (v_cols v) (v_rows v) (fun i j => v_pos v j i).
Definition flipud (v : view) : view := View (v_buf v) (v_rows v) (v_cols v) (fun i j => v_pos v (v_rows v - 1 - i)%nat j).

(** np.cumsum *)
Fixpoint cumsum_from (acc : R) (l : list R) : list R := match l with [] => [] | x :: l' => (acc + x) :: cumsum_from (acc + x) l' end.
(** the attributes used; [data] is the buffer holding the stored array.  Simplified: the shape is
    a pair of naturals and the data one-dimensional (the setters do not require either). *)
Record interferogram : Type := IG {
  data_buf : nat; shape0 : nat; shape1 : nat; pixel0 : R; pixel1 : R; location0 : R; location1 : R;
  scaling : R; fringe : R;
  ref0 : R; ref1 : R; ref_incidence : R; satellite_azimuth : R; satellite_altitude : R; earth_radius : R }.
(** l.664-679 *)
Definition vectorNx (g : interferogram) : list R :=
  map (fun x => x + location0 g) (0 :: cumsum_from 0 (repeat (pixel0 g) (shape0 g))).
Definition vectorNy (g : interferogram) : list R :=
  map (fun x => x - pixel1 g * INR (shape1 g)) (map (fun x => x + location1 g) (0 :: cumsum_from 0 (repeat (pixel1 g) (shape1 g)))).
(** l.681-686; [fresh] is a buffer not in use, for the copy *)
Definition get_plot_data (g : interferogram) (fresh : nat) (m : memory) : result (list R * list R * view) * memory :=
  let m := update m fresh (m (data_buf g)) in
  match reshapeF fresh (length (m fresh)) (shape0 g) (shape1 g) with
  | Raise e => (Raise e, m)
  | Ok v =>
      let v := flipud (transpose v) in
      let m := vmap (fun x => match x with Some x => if Reqb x 0 then None else Some x | None => None end) v m in
      let m := vmap (option_map (fun x => x * scaling g)) v m in
      (Ok (vectorNx g, vectorNy g, v), m)
  end.
(** l.714: x % y for floats, y > 0 *)
Definition fmod (x y : R) : R := x - y * IZR (Int_part (x / y)).
(** l.710-715, the array drawn with wrap=True: entry (i, j) *)
Definition wrapped (g : interferogram) (m : memory) (v : view) (i j : nat) : option R :=
  option_map (fun x => fmod x (fringe g)) (vread m v i j).

(** ** line of sight (l.786-908) *)
(** numpy's arccos and arcsin; nan outside [-1, 1] *)
Definition in_unit (x : R) : bool := Rleb (-1) x && Rleb x 1.
Definition arccos (x : R) : option R := if in_unit x then Some (acos x) else None.
Definition arcsin (x : R) : option R := if in_unit x then Some (asin x) else None.
(** np.arctan(a / b), with a/0 = +-inf and 0/0 = nan *)
Definition arctan_quot (a b : R) : option R :=
  if Reqb b 0 then (if Rltb 0 a then Some (PI / 2) else if Rltb a 0 then Some (- PI / 2) else None) else Some (atan (a / b)).
Definition DEG2RAD : R := PI / 180.
Definition deg2rad (x : R) : R := x * (PI / 180).
Definition rad2deg (x : R) : R := x * (180 / PI).
(** l.865-908 at one location: x, y longitude and latitude *)
Definition ang_to_gc (x y origx origy satAzimuth : R) : option R :=
  let satAzimuth := deg2rad satAzimuth in
  let origx := deg2rad origx in
  let origy := deg2rad origy in
  let x := deg2rad x in
  let y := deg2rad y in
  let Ngc0 := (sin satAzimuth * sin origy * cos origx) - (cos satAzimuth * sin origx) in
  let Ngc1 := (sin satAzimuth * sin origy * sin origx) + (cos satAzimuth * cos origx) in
  let Ngc2 := - sin satAzimuth * cos origy in
  let c0 := cos x * cos y in
  let c1 := sin x * cos y in
  let c2 := sin y in
  option_map (fun a => rad2deg a - 90) (arccos (Ngc0 * c0 + Ngc1 * c1 + Ngc2 * c2)).
(** l.841-854: the vector for the angular distance of a point *)
Definition los_vector (R_ h az beta : R) (angdist : R) : option (R * R * R) :=
  let beta2 := beta - angdist in
  let beta2 := beta2 * DEG2RAD in
  match arctan_quot (sin beta2) (cos beta2 - R_ / (R_ + h)) with
  | None => None
  | Some alpha2 =>
      let alpha2 := alpha2 / DEG2RAD in
      let inc := 90 - alpha2 in
      let az := 360 - az in
      Some (- cos (az * DEG2RAD) * cos (inc * DEG2RAD), - sin (az * DEG2RAD) * cos (inc * DEG2RAD), sin (inc * DEG2RAD))
  end.
(** l.810-814 *)
Definition beta_ref (R_ h incidence : R) : option R :=
  let alpha := incidence * DEG2RAD in
  match arcsin (R_ / (h + R_) * sin alpha) with
  | None => None
  | Some s => Some ((alpha - s) / DEG2RAD)
  end.
(** what can be passed as locations: a list of points, one point (a tuple or array of two
    numbers), or an array with a point in each row *)
Inductive locations : Type := LList (l : list (R * R)) | LPoint (p : R * R) | LRows (l : list (R * R)).
Fixpoint rsequence {A} (l : list (result A)) : result (list A) :=
  match l with [] => Ok [] | x :: l' => rbind x (fun a => rbind (rsequence l') (fun r => Ok (a :: r))) end.
(** l.786-856.  [latlon] is utm.to_latlon for the zone of the interferogram (latitude, longitude;
    it may raise).  The columns of the (3, n) result are returned, [None] for nan.  An array
    with a point in each row is wrapped into a one-element list, so its first two rows are taken
    for easting and northing; the coordinates then have shape (1, 2), which l.893 cannot store. *)
Definition get_LOS_vector (latlon : R -> R -> result (R * R)) (g : interferogram) (locs : locations) : result (list (option (R * R * R))) :=
  let run (l : list (R * R)) :=
    rbind (if Reqb (satellite_altitude g + earth_radius g) 0 then Raise ZeroDivisionError else Ok tt) (fun _ =>
    rbind (latlon (ref0 g) (ref1 g)) (fun orig =>
    rbind (rsequence (map (fun u => latlon (fst u) (snd u)) l)) (fun xy =>
    match xy with
    | [] => Raise IndexError
    | _ =>
      Ok (map (fun yx =>
        match beta_ref (earth_radius g) (satellite_altitude g) (ref_incidence g),
              ang_to_gc (snd yx) (fst yx) (snd orig) (fst orig) (satellite_azimuth g) with
        | Some b, Some d => los_vector (earth_radius g) (satellite_altitude g) (satellite_azimuth g) b d
        | _, _ => None
        end) xy)
    end))) in
  match locs with
  | LList l => run l
  | LPoint p => run [p]
  | LRows [] => Raise IndexError
  | LRows [_] => Raise IndexError
  | LRows ((e0, n0) :: (e1, n1) :: _) =>
      rbind (if Reqb (satellite_altitude g + earth_radius g) 0 then Raise ZeroDivisionError else Ok tt) (fun _ =>
      rbind (latlon (ref0 g) (ref1 g)) (fun _ =>
      rbind (latlon e0 e1) (fun _ => rbind (latlon n0 n1) (fun _ => Raise ValueError))))
  end.
