(** Properties C10-C14: fourier_interp1d, fourier_interp2d *)
From Coq Require Import ZArith Lia List Reals Lra Bool.
From Coquelicot Require Import Complex.
From Verif Require Import Base NDim DFT Kernel Py M_fast_ffts M_shift M_scale Spec L_shift L_scale.
Import ListNotations.
Open Scope R_scope.

Definition re_img (a : arr R) : arr C := amap RtoC a.

(** *** C10: samples are reproduced, and the interpolant is periodic *)
Theorem C10_interp1d_reproduces_samples :
  forall env (data : arr C) n (ts : arr R) m nt np,
  shape data = [n] -> (0 < n)%Z -> shape ts = [m] ->
  exists r, fourier_interp1d env data ts None nt np false = Ok (CplxArr r) /\
    fourier_interp1d env data ts None nt np true = Ok (RealArr (amap Re r)) /\
    shape r = [m] /\
    forall j (t : Z), (0 <= j < m)%Z -> g1 ts j = IZR t -> g1 r j = g1 data (t mod n)%Z.
Proof.
  intros env data n ts m nt np Hs Hn Hm.
  destruct (fourier_interp1d_ok env data n ts m nt np false Hs Hn Hm) as [r [H1 [H2 H3]]].
  destruct (fourier_interp1d_ok env data n ts m nt np true Hs Hn Hm) as [r' [H1' [H2' H3']]].
  exists r. split; [exact H1|]. split; [|split; [exact H2|]].
  - unfold fourier_interp1d in *. destruct (get_ffts env nt np) as [f g]. rewrite Hs, Hm in *.
    destruct (check_freqs [n]); simpl in *; try discriminate. destruct (check_fft [n]); simpl in *; try discriminate.
    unfold pick_real in *. injection H1 as H1. rewrite <- H1. reflexivity.
  - intros j t Hj Ht. unfold g1 at 1. rewrite H3 by auto. rewrite Ht.
    change [IZR t] with (toR [t]). rewrite interpN_int by (auto; repeat constructor; auto). reflexivity.
Qed.
Print Assumptions C10_interp1d_reproduces_samples.

Theorem C10_interp1d_periodic :
  forall env (data : arr C) n (ts ts' : arr R) m (q : Z -> Z) nt np,
  shape data = [n] -> (0 < n)%Z -> shape ts = [m] -> shape ts' = [m] ->
  (forall j, (0 <= j < m)%Z -> g1 ts' j = g1 ts j + IZR n * IZR (q j)) ->
  exists r r', fourier_interp1d env data ts None nt np false = Ok (CplxArr r) /\
    fourier_interp1d env data ts' None nt np false = Ok (CplxArr r') /\ aeq r r'.
Proof.
  intros env data n ts ts' m q nt np Hs Hn Hm Hm' Hq.
  destruct (fourier_interp1d_ok env data n ts m nt np false Hs Hn Hm) as [r [H1 [H2 H3]]].
  destruct (fourier_interp1d_ok env data n ts' m nt np false Hs Hn Hm') as [r' [H1' [H2' H3']]].
  exists r, r'. split; [exact H1|]. split; [exact H1'|]. split; [congruence|].
  intros i Hi. rewrite H2 in Hi. apply inb1 in Hi. destruct Hi as [j [-> Hj]].
  rewrite H3, H3', Hq by auto.
  change [g1 ts j + IZR n * IZR (q j)] with (addR [g1 ts j] (zipw (fun n k => IZR n * IZR k) [n] [q j])).
  symmetry. apply interpN_period; auto. repeat constructor; auto.
Qed.
Print Assumptions C10_interp1d_periodic.

(** general real coordinates: the real trigonometric interpolant *)
Theorem C10_interp1d_is_trig_interpolant :
  forall env (data : arr R) n (ts : arr R) m nt np,
  shape data = [n] -> (0 < n)%Z -> shape ts = [m] ->
  exists r, fourier_interp1d env (re_img data) ts None nt np true = Ok (RealArr r) /\ shape r = [m] /\
    forall j, (0 <= j < m)%Z -> g1 r j = trig_interpR [n] (get data) [g1 ts j].
Proof.
  intros env data n ts m nt np Hs Hn Hm.
  destruct (fourier_interp1d_ok env (re_img data) n ts m nt np true Hs Hn Hm) as [r [H1 [H2 H3]]].
  eexists. split; [exact H1|]. split; [exact H2|]. intros j Hj. unfold g1 at 1. simpl. rewrite H3 by auto.
  apply interpN_realpart; auto. repeat constructor; auto.
Qed.
Print Assumptions C10_interp1d_is_trig_interpolant.

Example C10_nonvacuous : let data := mk1 4 (fun x => RtoC (IZR (x * x))) in let ts := mk1 3 (fun j => IZR (j - 9)) in
  shape data = [4]%Z /\ shape ts = [3]%Z /\ g1 ts 0%Z = IZR (-9) /\ g1 data (-9 mod 4)%Z = RtoC 9.
Proof. repeat split. Qed.

(** *** C11: band-limited signals are interpolated exactly *)
(** trigonometric polynomial with (complex) coefficients c_0..c_2M of the frequencies -M..M, period n *)
Definition trig_poly (n M : Z) (c : Z -> C) (t : R) : C :=
  sumC (2 * M + 1) (fun j => Cmult (c j) (cis (2 * PI * (IZR (j - M) * t / IZR n)))).

Theorem C11_band_limited_exact :
  forall env (data : arr C) n M (c : Z -> C) (ts : arr R) m nt np,
  shape data = [n] -> (0 <= M)%Z -> (2 * M < n)%Z -> shape ts = [m] ->
  (forall x, (0 <= x < n)%Z -> g1 data x = trig_poly n M c (IZR x)) ->
  exists r, fourier_interp1d env data ts None nt np false = Ok (CplxArr r) /\ shape r = [m] /\
    forall j, (0 <= j < m)%Z -> g1 r j = trig_poly n M c (g1 ts j).
Proof.
  intros env data n M c ts m nt np Hs HM HMn Hm Hd.
  assert (Hn : (0 < n)%Z) by lia.
  destruct (fourier_interp1d_ok env data n ts m nt np false Hs Hn Hm) as [r [H1 [H2 H3]]].
  exists r. split; [exact H1|]. split; [exact H2|]. intros j Hj. unfold g1 at 1. rewrite H3 by auto.
  rewrite (interpN_ext [n] _ (fun y => sumC (2 * M + 1) (fun i => Cmult (c i) (match y with [x] => cis (2 * PI * (IZR (i - M) * IZR x / IZR n)) | _ => 0 end)))).
  2:{ intros y Hy. apply inb1 in Hy. destruct Hy as [x [-> Hx]]. apply Hd; auto. }
  rewrite interpN_sum. unfold trig_poly. apply sumC_ext. intros i Hi. rewrite interpN_scal. f_equal.
  apply mode_interp; lia.
Qed.
Print Assumptions C11_band_limited_exact.

Example C11_nonvacuous : exists (data : arr C) (c : Z -> C), shape data = [5]%Z /\ (2 * 2 < 5)%Z /\ c 4%Z <> 0 /\
  (forall x, (0 <= x < 5)%Z -> g1 data x = trig_poly 5 2 c (IZR x)).
Proof.
  exists (mk1 5 (fun x => trig_poly 5 2 (fun j => RtoC (IZR j)) (IZR x))), (fun j => RtoC (IZR j)).
  repeat split; try lia. apply RtoC_neq0. lra.
Qed.

(** *** C12: data_x re-gridding and validation *)
Theorem C12_data_x_nodes :
  forall env (data : arr C) n (dx out_x : arr R) m nt np,
  shape data = [n] -> (0 < n)%Z -> shape dx = [n] -> shape out_x = [m] ->
  (forall a b, (0 <= a)%Z -> (a < b)%Z -> (b < n)%Z -> g1 dx a < g1 dx b) ->
  exists r, fourier_interp1d env data out_x (Some dx) nt np false = Ok (CplxArr r) /\ shape r = [m] /\
    forall j, (0 <= j < m)%Z ->
      (forall i, (0 <= i < n)%Z -> g1 out_x j = g1 dx i -> g1 r j = g1 data i) /\
      (g1 out_x j <= g1 dx 0%Z -> g1 r j = g1 data 0%Z) /\
      (g1 dx (n - 1)%Z <= g1 out_x j -> g1 r j = g1 data (n - 1)%Z).
Proof.
  intros env data n dx out_x m nt np Hs Hn Hd Hm Hinc.
  destruct (fourier_interp1d_dx_ok env data n out_x dx m nt np false Hs Hn Hm Hd) as [r [H1 [H2 H3]]].
  exists r. split; [exact H1|]. split; [exact H2|]. intros j Hj.
  assert (Hp : pos_shape [n]) by (repeat constructor; auto).
  assert (G : forall i, (0 <= i < n)%Z -> np_interp n (g1 dx) IZR (g1 out_x j) = IZR i -> g1 r j = g1 data i).
  { intros i Hi E. unfold g1 at 1. rewrite H3 by auto. rewrite E. change [IZR i] with (toR [i]).
    rewrite interpN_int by auto. rewrite modl_small by (simpl; lia). reflexivity. }
  split; [|split].
  - intros i Hi E. apply G; auto. rewrite E. apply np_interp_node; auto.
  - intros E. apply G; [lia|]. apply np_interp_left; auto.
  - intros E. apply G; [lia|]. apply np_interp_right; auto.
Qed.
Print Assumptions C12_data_x_nodes.

Theorem C12_validation :
  forall env (data : arr C) n (out_x : arr R) nt np rr,
  shape data = [n] -> (0 < n)%Z ->
  (ndim out_x <> 1%nat -> forall data_x, fourier_interp1d env data out_x data_x nt np rr = Raise ValueError) /\
  (forall dx, ndim out_x = 1%nat -> shape dx <> shape data ->
     fourier_interp1d env data out_x (Some dx) nt np rr = Raise ValueError).
Proof.
  intros env data n out_x nt np rr Hs Hn. unfold fourier_interp1d, ndim. destruct (get_ffts env nt np) as [f g]. rewrite Hs.
  assert (Hc : check_freqs [n] = Ok tt).
  { unfold check_freqs. simpl. destruct (Z.eqb_spec n 0); [lia|reflexivity]. }
  rewrite Hc. simpl bind. split.
  - intros H dx. destruct (shape out_x) as [|n1 [|n2 l]]; simpl in *; auto; congruence.
  - intros dx H1 H2. destruct (shape out_x) as [|n1 [|n2 l]]; simpl in H1; try discriminate.
    destruct (list_eq_dec Z.eq_dec (shape dx) [n]) as [E|E]; [congruence|reflexivity].
Qed.
Print Assumptions C12_validation.

Example C12_nonvacuous : let dx := mk1 3 (fun x => IZR (x * x) + 1/2) in
  shape dx = [3]%Z /\ (forall a b, (0 <= a)%Z -> (a < b)%Z -> (b < 3)%Z -> g1 dx a < g1 dx b) /\
  ndim (mk2 2 2 (fun _ _ => 0)) <> 1%nat.
Proof.
  split; [reflexivity|]. split; [|discriminate]. intros a b H1 H2 H3. unfold g1; simpl.
  assert (IZR (a * a) < IZR (b * b)) by (apply IZR_lt; nia). lra.
Qed.

(** *** C13: 2-D interpolation *)
Lemma check_seq2 ys xs : check_outinds 2 (IndSeq [ys; xs]) = Ok tt.
Proof. reflexivity. Qed.

Theorem C13_interp2d_is_separable_interpolant :
  forall env (data : arr R) ny nx (ys xs : list R) nt np,
  shape data = [ny; nx] -> (0 < ny)%Z -> (0 < nx)%Z ->
  exists r, fourier_interp2d env (re_img data) (IndSeq [ys; xs]) nt np true = Ok (RealArr r) /\
    shape r = [Z.of_nat (length ys); Z.of_nat (length xs)] /\
    forall i j, (i < length ys)%nat -> (j < length xs)%nat ->
      g2 r (Z.of_nat i) (Z.of_nat j) = trig_interpR [ny; nx] (get data) [nth i ys 0; nth j xs 0].
Proof.
  intros env data ny nx ys xs nt np Hs Hy Hx.
  destruct (fourier_interp2d_ok env (re_img data) ny nx (IndSeq [ys; xs]) (arr_of_list ys) (arr_of_list xs)
     (Z.of_nat (length ys)) (Z.of_nat (length xs)) nt np true Hs Hy Hx (check_seq2 ys xs)) as [r [H1 [H2 H3]]]; auto.
  { split; reflexivity. }
  eexists. split; [exact H1|]. split; [exact H2|]. intros i j Hi Hj. unfold g2. simpl. rewrite H3.
  rewrite <- interpN_realpart by (auto; repeat constructor; auto).
  unfold arr_of_list, g1; simpl. rewrite !Nat2Z.id. reflexivity.
Qed.
Print Assumptions C13_interp2d_is_separable_interpolant.

(** np.indices-like index array: first plane constant along rows, second constant along columns *)
Theorem C13_index_array_form_agrees :
  forall env (data : arr C) ny nx (a : arr R) (ys xs : list R) nt np rr,
  shape data = [ny; nx] -> (0 < ny)%Z -> (0 < nx)%Z -> ys <> [] -> xs <> [] ->
  shape a = [2%Z; Z.of_nat (length ys); Z.of_nat (length xs)] ->
  (forall i j, (i < length ys)%nat -> (j < length xs)%nat ->
      get a [0%Z; Z.of_nat i; Z.of_nat j] = nth i ys 0 /\ get a [1%Z; Z.of_nat i; Z.of_nat j] = nth j xs 0) ->
  same_result (fourier_interp2d env data (IndArr a) nt np rr) (fourier_interp2d env data (IndSeq [ys; xs]) nt np rr).
Proof.
  intros env data ny nx a ys xs nt np rr Hs Hy Hx Hys Hxs Ha Hv.
  assert (Ly : (0 < length ys)%nat) by (destruct ys; [congruence|simpl; lia]).
  assert (Lx : (0 < length xs)%nat) by (destruct xs; [congruence|simpl; lia]).
  destruct (fourier_interp2d_ok env data ny nx (IndSeq [ys; xs]) (arr_of_list ys) (arr_of_list xs)
     (Z.of_nat (length ys)) (Z.of_nat (length xs)) nt np rr Hs Hy Hx (check_seq2 ys xs)) as [r [H1 [H2 H3]]]; auto.
  { split; reflexivity. }
  destruct (fourier_interp2d_ok env data ny nx (IndArr a)
     (mk1 (Z.of_nat (length ys)) (fun i => get a [0; i; 0]%Z)) (mk1 (Z.of_nat (length xs)) (fun j => get a [1; 0; j]%Z))
     (Z.of_nat (length ys)) (Z.of_nat (length xs)) nt np rr Hs Hy Hx) as [r' [H1' [H2' H3']]]; auto.
  { unfold check_outinds, ndim. simpl. rewrite Ha. reflexivity. }
  { unfold coords2, axis_coords. rewrite Ha. simpl.
    destruct (Z.leb_spec (Z.of_nat (length xs)) 0); [lia|]. destruct (Z.leb_spec (Z.of_nat (length ys)) 0); [lia|].
    split; reflexivity. }
  rewrite H1, H1'. simpl.
  assert (E : aeq r' r).
  { split; [congruence|]. intros i Hi. rewrite H2' in Hi. apply inb2 in Hi. destruct Hi as [i0 [j0 [-> [Hi Hj]]]].
    rewrite H3, H3'. unfold g1; simpl.
    destruct (Hv (Z.to_nat i0) 0%nat) as [E1 _]; try lia. destruct (Hv 0%nat (Z.to_nat j0)) as [_ E2]; try lia.
    rewrite Z2Nat.id in E1, E2 by lia. simpl in E1, E2. rewrite E1, E2. reflexivity. }
  destruct E as [E1 E2]. unfold pick_real. destruct rr; simpl; split; auto; intros i Hi; simpl; rewrite ?E2; auto.
Qed.
Print Assumptions C13_index_array_form_agrees.

Theorem C13_interp2d_reproduces_pixels :
  forall env (data : arr C) ny nx (ys xs : list Z) nt np,
  shape data = [ny; nx] -> (0 < ny)%Z -> (0 < nx)%Z ->
  exists r, fourier_interp2d env data (IndSeq [map IZR ys; map IZR xs]) nt np false = Ok (CplxArr r) /\
    forall i j, (i < length ys)%nat -> (j < length xs)%nat ->
      g2 r (Z.of_nat i) (Z.of_nat j) = g2 data (nth i ys 0%Z mod ny)%Z (nth j xs 0%Z mod nx)%Z.
Proof.
  intros env data ny nx ys xs nt np Hs Hy Hx.
  destruct (fourier_interp2d_ok env data ny nx (IndSeq [map IZR ys; map IZR xs]) (arr_of_list (map IZR ys)) (arr_of_list (map IZR xs))
     (Z.of_nat (length (map IZR ys))) (Z.of_nat (length (map IZR xs))) nt np false Hs Hy Hx (check_seq2 _ _)) as [r [H1 [H2 H3]]]; auto.
  { split; reflexivity. }
  exists r. split; [exact H1|]. intros i j Hi Hj. unfold g2. rewrite H3. unfold arr_of_list, g1; simpl. rewrite !Nat2Z.id.
  change 0 with (IZR 0). rewrite !map_nth.
  change [IZR (nth i ys 0%Z); IZR (nth j xs 0%Z)] with (toR [nth i ys 0%Z; nth j xs 0%Z]).
  rewrite interpN_int by (auto; repeat constructor; auto). reflexivity.
Qed.
Print Assumptions C13_interp2d_reproduces_pixels.

Theorem C13_validation :
  forall env (data : arr C) o nt np rr,
  ndim data = 2%nat ->
  (match o with
   | IndArr a => (ndim a <> 2%nat /\ ndim a <> 3%nat) \/ nth 0 (shape a) 0%Z <> 2%Z
   | IndSeq l => length l <> 2%nat
   end) ->
  fourier_interp2d env data o nt np rr = Raise ValueError.
Proof.
  intros env data o nt np rr Hd Ho. unfold fourier_interp2d. destruct (get_ffts env nt np) as [f g]. rewrite Hd.
  unfold check_outinds. destruct o as [a|l]; simpl in *.
  - destruct (Nat.eqb_spec (ndim a) 3) as [E3|E3], (Nat.eqb_spec (ndim a) 2) as [E2|E2]; simpl; auto;
      destruct (Z.eqb_spec (nth 0 (shape a) 0%Z) 2) as [E|E]; simpl; auto; exfalso; destruct Ho as [[? ?]|?]; congruence.
  - destruct (Z.eqb_spec (Z.of_nat (length l)) 2) as [E|E]; simpl; auto. exfalso. apply Ho. lia.
Qed.
Print Assumptions C13_validation.

Example C13_nonvacuous : let data := mk2 2 3 (fun y x => IZR (y + 2 * x)) in
  shape data = [2; 3]%Z /\ ([1/2; 3; -1] : list R) <> [] /\
  (let a := Arr [2; 2; 1]%Z (fun i => match i with [0; y; _]%Z => IZR y | [_; _; x] => IZR x | _ => 0 end) in
   forall i j, (i < 2)%nat -> (j < 1)%nat ->
     get a [0%Z; Z.of_nat i; Z.of_nat j] = nth i [0; 1] 0 /\ get a [1%Z; Z.of_nat i; Z.of_nat j] = nth j [0] 0).
Proof.
  split; [reflexivity|]. split; [discriminate|]. intros a i j Hi Hj. destruct j; [|lia].
  destruct i as [|[|i]]; [| |lia]; split; reflexivity.
Qed.

(** *** C14: shifting and interpolating agree *)
Lemma coord_minus_sub x d : coord_minus x d = subR (toR x) d.
Proof.
  revert d; induction x as [|x xs IH]; intros [|d ds]; simpl; auto.
  unfold coord_minus, subR, toR in *; simpl. rewrite IH. reflexivity.
Qed.

(** the default (real) output of shiftnd is the real trigonometric interpolant at x - d, in any dimension *)
Theorem C14_shift_is_interpolation :
  forall env (img : arr R) (d : list R) nt np rabs,
  pos_shape (shape img) -> length d = ndim img ->
  exists r, shiftnd env (of_R img) d 0 nt np rabs true = Ok (RealArr r) /\ shape r = shape img /\
    forall x, inb (shape img) x -> get r x = trig_interpR (shape img) (get img) (coord_minus x d).
Proof.
  intros env img d nt np rabs Hp Hd.
  destruct (shiftnd_ok env (of_R img) d 0 nt np rabs true Hp) as [r [H1 [H2 H3]]].
  rewrite H1. eexists. split; [reflexivity|]. split; [exact H2|]. intros x Hx. simpl. rewrite H3 by auto.
  simpl shape. rewrite fit_offset_id by auto. unfold shifted. rewrite Ropp_0, cis_0, Cmult_1_l.
  assert (Hlx := inb_length _ _ Hx). unfold ndim in Hd.
  rewrite Dn_interp by (auto; rewrite subR_length, toR_length; lia).
  rewrite coord_minus_sub. rewrite <- trig_interp_Re. reflexivity.
Qed.
Print Assumptions C14_shift_is_interpolation.

Theorem C14_shift_equals_fourier_interp1d :
  forall env (img : arr R) n (d : R) nt np,
  shape img = [n] -> (0 < n)%Z ->
  exists r1 r2, shiftnd env (of_R img) [d] 0 nt np false true = Ok (RealArr r1) /\
    fourier_interp1d env (re_img img) (mk1 n (fun x => IZR x - d)) None nt np true = Ok (RealArr r2) /\
    aeq r1 r2.
Proof.
  intros env img n d nt np Hs Hn.
  assert (Hp : pos_shape (shape img)) by (rewrite Hs; repeat constructor; auto).
  destruct (C14_shift_is_interpolation env img [d] nt np false Hp) as [r1 [H1 [H2 H3]]].
  { unfold ndim. rewrite Hs. reflexivity. }
  destruct (C10_interp1d_is_trig_interpolant env img n (mk1 n (fun x => IZR x - d)) n nt np Hs Hn eq_refl) as [r2 [H4 [H5 H6]]].
  exists r1, r2. repeat split; auto; [congruence|]. intros i Hi. rewrite H2 in Hi. rewrite H3 by auto.
  rewrite Hs in Hi. apply inb1 in Hi. destruct Hi as [j [-> Hj]].
  change (get r2 [j]) with (g1 r2 j). rewrite H6 by auto. rewrite Hs. reflexivity.
Qed.
Print Assumptions C14_shift_equals_fourier_interp1d.

Theorem C14_shift_equals_fourier_interp2d :
  forall env (img : arr R) ny nx (dy dx : R) nt np,
  shape img = [ny; nx] -> (0 < ny)%Z -> (0 < nx)%Z ->
  let ys := map (fun i => IZR (Z.of_nat i) - dy) (seq 0 (Z.to_nat ny)) in
  let xs := map (fun i => IZR (Z.of_nat i) - dx) (seq 0 (Z.to_nat nx)) in
  exists r1 r2, shiftnd env (of_R img) [dy; dx] 0 nt np false true = Ok (RealArr r1) /\
    fourier_interp2d env (re_img img) (IndSeq [ys; xs]) nt np true = Ok (RealArr r2) /\
    aeq r1 r2.
Proof.
  intros env img ny nx dy dx nt np Hs Hy Hx ys xs.
  assert (Hp : pos_shape (shape img)) by (rewrite Hs; repeat constructor; auto).
  destruct (C14_shift_is_interpolation env img [dy; dx] nt np false Hp) as [r1 [H1 [H2 H3]]].
  { unfold ndim. rewrite Hs. reflexivity. }
  destruct (C13_interp2d_is_separable_interpolant env img ny nx ys xs nt np Hs Hy Hx) as [r2 [H4 [H5 H6]]].
  assert (Ly : length ys = Z.to_nat ny) by (unfold ys; rewrite map_length, seq_length; auto).
  assert (Lx : length xs = Z.to_nat nx) by (unfold xs; rewrite map_length, seq_length; auto).
  rewrite Ly, Lx, !Z2Nat.id in H5 by lia.
  exists r1, r2. repeat split; auto; [congruence|]. intros i Hi. rewrite H2 in Hi. rewrite H3 by auto.
  rewrite Hs in Hi. apply inb2 in Hi. destruct Hi as [i0 [j0 [-> [Hi Hj]]]].
  assert (E := H6 (Z.to_nat i0) (Z.to_nat j0) ltac:(lia) ltac:(lia)). unfold g2 in E. rewrite !Z2Nat.id in E by lia.
  rewrite E, Hs. unfold coord_minus; simpl.
  assert (Ny : nth (Z.to_nat i0) ys 0 = IZR i0 - dy).
  { rewrite (nth_indep ys 0 ((fun i => IZR (Z.of_nat i) - dy) 0%nat)) by lia.
    unfold ys. rewrite (map_nth (fun i => IZR (Z.of_nat i) - dy)), seq_nth by lia. simpl. rewrite Z2Nat.id by lia. reflexivity. }
  assert (Nx : nth (Z.to_nat j0) xs 0 = IZR j0 - dx).
  { rewrite (nth_indep xs 0 ((fun i => IZR (Z.of_nat i) - dx) 0%nat)) by lia.
    unfold xs. rewrite (map_nth (fun i => IZR (Z.of_nat i) - dx)), seq_nth by lia. simpl. rewrite Z2Nat.id by lia. reflexivity. }
  rewrite Ny, Nx. reflexivity.
Qed.
Print Assumptions C14_shift_equals_fourier_interp2d.

Example C14_nonvacuous : let img := mk2 2 3 (fun y x => IZR (y + 2 * x)) in
  pos_shape (shape img) /\ length [1/3; 5/2] = ndim img.
Proof. split; [repeat constructor; lia|reflexivity]. Qed.
