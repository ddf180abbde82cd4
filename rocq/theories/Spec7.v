(** Specification vocabulary: FITS headers and footprints *)
From Coq Require Import ZArith List Reals String.
From Verif Require Import Base NDim Num Py M_fits.
Import ListNotations.
Open Scope R_scope.

(** the two header axes *)
Inductive axis := AX1 | AX2.
Definition key (s : string) (a : axis) : string := (s ++ match a with AX1 => "1" | AX2 => "2" end)%string.
Definition coord (a : axis) (p : R * R) : R := match a with AX1 => fst p | AX2 => snd p end.

(** header [h] has world coordinates [w] and size nx by ny *)
Definition sees (WCS : header -> res wcs) (h : header) (w : wcs) (nx ny : Z) : Prop :=
  WCS h = Ok w /\ hget h "NAXIS1" = Ok (HInt nx) /\ hget h "NAXIS2" = Ok (HInt ny).
(** world coordinate along axis a of the centre of the first and of the last pixel *)
Definition first_corner (w : wcs) (a : axis) : R := coord a (pix2world w (1, 1)).
Definition last_corner (w : wcs) (nx ny : Z) (a : axis) : R := coord a (pix2world w (IZR nx, IZR ny)).
(** x lies between the two corners *)
Definition spans (w : wcs) (nx ny : Z) (a : axis) (x : R) : Prop :=
  first_corner w a <= x <= last_corner w nx ny a \/ last_corner w nx ny a <= x <= first_corner w a.
(** the corner longitudes need no wrapping *)
Definition unwrapped (sep : R) (w : wcs) (nx ny : Z) : Prop :=
  Rabs (first_corner w AX1) <= sep /\ Rabs (last_corner w nx ny AX1) <= sep.
(** pixel scale: diagonal element of the CD matrix if there is one, else CDELT *)
Definition scale_of (w : wcs) (a : axis) : R :=
  match w_cd w with Some (c11, _, _, c22) => coord a (c11, c22) | None => coord a (w_cdelt w) end.
Definition same_kind (w1 w2 : wcs) : Prop := w_cd w1 = None <-> w_cd w2 = None.

(** the cards describing axis a *)
Definition axis_cards (h : header) (a : axis) (crval cdelt : R) (naxis : Z) (crpix : R) : Prop :=
  hget h (key "CRVAL" a) = Ok (HFloat crval) /\ hget h (key "CDELT" a) = Ok (HFloat cdelt) /\
  hget h (key "NAXIS" a) = Ok (HInt naxis) /\ hget h (key "CRPIX" a) = Ok (HFloat crpix).
(** x is in the box of NAXIS pixels of CDELT centred on CRVAL *)
Definition covers (h : header) (a : axis) (x : R) : Prop :=
  exists c d n p, axis_cards h a c d n p /\ Rabs (x - c) <= IZR n * Rabs d / 2.
(** P's extent is the interval from lo to hi *)
Definition extent (P : R -> Prop) (lo hi : R) : Prop := P lo /\ P hi /\ forall x, P x -> lo <= x <= hi.

(** the cards header_overlap may change *)
Definition wcs_keys : list string :=
  ["CRVAL1"; "CRVAL2"; "CDELT1"; "CDELT2"; "NAXIS1"; "NAXIS2"; "CRPIX1"; "CRPIX2"; "CD1_1"; "CD1_2"; "CD2_1"; "CD2_2"]%string.
Definition cd_keys : list string := ["CD1_1"; "CD1_2"; "CD2_1"; "CD2_2"]%string.

(** a linear header: what astropy computes when the axes have no projection (CTYPE absent or linear, no rotation) *)
Definition linear_wcs (crval1 crval2 crpix1 crpix2 s1 s2 : R) (with_cd : bool) : wcs :=
  Wcs (fun p => (crval1 + s1 * (fst p - crpix1), crval2 + s2 * (snd p - crpix2)))
      (if with_cd then Some (s1, 0, 0, s2) else None) (if with_cd then (1, 1) else (s1, s2)).

(** [overlapping]: the two footprints share a point along the axis *)
Definition overlapping (w1 : wcs) (nx1 ny1 : Z) (w2 : wcs) (nx2 ny2 : Z) (a : axis) : Prop :=
  exists x, spans w1 nx1 ny1 a x /\ spans w2 nx2 ny2 a x.

(** everything about one axis of the result *)
Definition along (w1 : wcs) (nx1 ny1 : Z) (w2 : wcs) (nx2 ny2 : Z) (P : axis -> R -> Prop) (h : header) (a : axis) : Prop :=
  exists c d n,
    axis_cards h a c d n (IZR n / 2) /\ (0 <= n)%Z /\
    (* pixel scale: the finer one, with the sign of the first header's *)
    Rabs d = Rmin (Rabs (scale_of w1 a)) (Rabs (scale_of w2 a)) /\ 0 < d * scale_of w1 a /\
    (* no common point: empty *)
    (~ overlapping w1 nx1 ny1 w2 nx2 ny2 a -> n = 0%Z) /\
    (* otherwise centred on the box and as wide as it, rounded up to whole pixels *)
    (overlapping w1 nx1 ny1 w2 nx2 ny2 a ->
       exists lo hi, extent (P a) lo hi /\ c = (lo + hi) / 2 /\ hi - lo <= IZR n * Rabs d < hi - lo + Rabs d).


(** WCS of a header with linear axes, read from its cards *)
Definition card (h : header) (k : string) (dflt : R) : R := match hget h k with Ok (HFloat r) => r | Ok (HInt z) => IZR z | _ => dflt end.
Definition linear_WCS (h : header) : res wcs :=
  let cd := hhas h "CD1_1" in
  Ok (linear_wcs (card h "CRVAL1" 0) (card h "CRVAL2" 0) (card h "CRPIX1" 0) (card h "CRPIX2" 0)
        (if cd then card h "CD1_1" 0 else card h "CDELT1" 1) (if cd then card h "CD2_2" 0 else card h "CDELT2" 1) cd).

(** *** images *)
(** a pixel is significant: a number above the noise times the cut *)
Definition significant (noise : num) (cut : R) (x : num) : Prop :=
  match x, noise with Fin v, Fin s => s * cut < v | _, _ => False end.
(** what a cut makes of a pixel: NaN stays, significant pixels stay, others become 0 *)
Definition cut_pixel (noise : num) (cut : R) (x y : num) : Prop :=
  match x with NaN => y = NaN | Fin v => (significant noise cut x /\ y = Fin v) \/ (~ significant noise cut x /\ y = Fin 0) end.
(** sum of the products of the pixels significant in both images *)
Definition bright_overlap (n1 n2 : num) (cut : R) (a b : arr num) (s : R) : Prop :=
  exists f, s = sumNR (shape a) f /\ forall i, inb (shape a) i ->
    (significant n1 cut (get a i) /\ significant n2 cut (get b i) /\ exists x y, get a i = Fin x /\ get b i = Fin y /\ f i = x * y) \/
    ((~ significant n1 cut (get a i) \/ ~ significant n2 cut (get b i)) /\ f i = 0).

(** the tuple register_fits returns *)
Definition layout (rerr rimg rshift rhdr : bool) (x y ex ey c1 c2 : R) (im1 im2 : arr num) (shifted : anyarr) (h : header) : list fitem :=
  [FNum x; FNum y; FNum (x * c1); FNum (y * c2)] ++
  (if rerr then [FNum ex; FNum ey; FNum (ex * c1); FNum (ey * c2)] else []) ++
  (if rimg then [FImg im1; FImg im2] else []) ++
  (if rshift then [FShifted shifted] else []) ++
  (if rhdr then [FHdr h] else []).
