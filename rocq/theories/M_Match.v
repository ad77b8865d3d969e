(** Model of match_catalogs, petrofit/utils.py 78-82, over the real numbers.  SkyCoord and
    match_to_catalog_sky are astropy code: positions are points of the unit sphere, the k-d
    tree is a function [query] giving the index of a point of the second catalog.
    Simplifications: one dimensional lists of finite numbers, no frames other than ICRS; an
    angular unit is its size in degrees. *)
From Verif Require Import Base Num.
Local Open Scope R_scope.

(** an angle of value a in the unit u, in degrees *)
Definition in_degrees (u a : R) : R := a * u.

(** Longitude: wrapped into [0, 360) degrees *)
Definition wrap360 (d : R) : R := d - 360 * IZR (Int_part (d / 360)).

Definition rad (d : R) : R := d * (PI / 180).

(** numpy broadcasting of two lists *)
Definition broadcast2 (a b : list R) : result (list (R * R)) :=
  if Nat.eqb (length a) (length b) then Ok (combine a b)
  else match a, b with
       | [x], _ => Ok (map (fun y => (x, y)) b)
       | _, [y] => Ok (map (fun x => (x, y)) a)
       | _, _ => Err ValueError
       end.

(** SkyCoord(ra=, dec=, unit=): (longitude, latitude) in radians; Latitude raises for
    declinations beyond the poles *)
Definition SkyCoord (ra dec : list R) (u : R) : result (list (R * R)) :=
  if forallb (fun d => (Rleb (-90) (in_degrees u d) && Rleb (in_degrees u d) 90)%bool) dec then
    do l <- broadcast2 ra dec;
    Ok (map (fun p => (rad (wrap360 (in_degrees u (fst p))), rad (in_degrees u (snd p)))) l)
  else Err ValueError.

Definition point : Type := R * R * R.

(** unit vector of a direction *)
Definition xyz (p : R * R) : point :=
  (cos (snd p) * cos (fst p), cos (snd p) * sin (fst p), sin (snd p)).

(** Euclidean distance *)
Definition dist3 (p q : point) : R :=
  let '(a, b, c) := p in let '(d, e, f) := q in
  sqrt ((a - d) * (a - d) + (b - e) * (b - e) + (c - f) * (c - f)).

(** np.arctan2(y, x) for y >= 0 *)
Definition arctan2 (y x : R) : R :=
  if Rltb 0 x then atan (y / x)
  else if Rltb x 0 then atan (y / x) + PI
  else if Rltb 0 y then PI / 2 else 0.

(** astropy angular_separation (Vincenty) *)
Definition angular_separation (p q : R * R) : R :=
  let sdlon := sin (fst q - fst p) in
  let cdlon := cos (fst q - fst p) in
  let slat1 := sin (snd p) in let slat2 := sin (snd q) in
  let clat1 := cos (snd p) in let clat2 := cos (snd q) in
  let num1 := clat2 * sdlon in
  let num2 := clat1 * slat2 - slat1 * clat2 * cdlon in
  let denominator := slat1 * slat2 + clat1 * clat2 * cdlon in
  arctan2 (sqrt (num1 * num1 + num2 * num2)) denominator.

Section Match.
  (** the k-d tree of scipy *)
  Variable query : list point -> point -> nat.

  (** cat1.match_to_catalog_sky(cat2): indices, separations in radians, distances *)
  Definition match_to_catalog_sky (c1 c2 : list (R * R)) : result (list nat * list R * list R) :=
    match c2 with
    | [] => Err ValueError
    | q0 :: _ =>
        let idx := map (fun p => query (map xyz c2) (xyz p)) c1 in
        let sep := map (fun p => angular_separation (nth (query (map xyz c2) (xyz p)) c2 q0) p) c1 in
        let d3 := map (fun p => dist3 (xyz (nth (query (map xyz c2) (xyz p)) c2 q0)) (xyz p)) c1 in
        Ok (idx, sep, d3)
    end.

  (** utils.py 78-82 *)
  Definition match_catalogs (ra_1 dec_1 ra_2 dec_2 : list R) (u : R) : result (list nat * list R * list R) :=
    do cat1_coords <- SkyCoord ra_1 dec_1 u;
    do cat2_coords <- SkyCoord ra_2 dec_2 u;
    match_to_catalog_sky cat1_coords cat2_coords.
End Match.
