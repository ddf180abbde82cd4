(** Lemmas about scale.py *)
From Coq Require Import ZArith Lia List Reals Lra Bool.
From Coquelicot Require Import Complex.
From Verif Require Import Base NDim DFT Kernel Py M_fast_ffts M_shift M_scale Spec L_shift.
Import ListNotations.
Open Scope R_scope.

(** spatial form of the interpolation routines *)
Definition interpN (sh : list Z) (a : list Z -> C) (p : list R) : C :=
  sumNC sh (fun y => Cmult (a y) (Dn sh (subR (toR y) p))).

Lemma interpN_ext sh a b p : (forall y, inb sh y -> a y = b y) -> interpN sh a p = interpN sh b p.
Proof. intros H. apply sumNC_ext. intros y Hy. rewrite H by auto. reflexivity. Qed.

Lemma interpN_int sh a (t : list Z) : pos_shape sh -> length t = length sh ->
  interpN sh a (toR t) = a (modl sh t).
Proof.
  intros Hp Hl. rewrite <- (kron sh a t) by auto. apply sumNC_ext. intros y Hy. f_equal.
  assert (Hly := inb_length _ _ Hy).
  rewrite subR_toR, Dn_int by (auto; rewrite subl_length; lia). f_equal.
  (* eqmodb is symmetric *)
  clear a Hy. revert t y Hl Hly. induction sh as [|n sh IH]; intros [|t ts] [|y ys] Hl Hly; simpl in *; try discriminate; auto.
  apply pos_shape_cons in Hp. destruct Hp as [Hn Hp]. change (zipw Z.sub) with subl. rewrite IH by (auto; lia). f_equal.
  destruct (Z.eqb_spec ((y - t) mod n) 0) as [E|E], (Z.eqb_spec ((t - y) mod n) 0) as [F|F]; auto; exfalso.
  - apply F. apply Z.mod_divide in E; [|lia]. destruct E as [q Hq]. replace (t - y)%Z with ((- q) * n)%Z by lia. apply Z.mod_mul; lia.
  - apply E. apply Z.mod_divide in F; [|lia]. destruct F as [q Hq]. replace (y - t)%Z with ((- q) * n)%Z by lia. apply Z.mod_mul; lia.
Qed.

Lemma interpN_period sh a p m : pos_shape sh -> length p = length sh -> length m = length sh ->
  interpN sh a (addR p (zipw (fun n j => IZR n * IZR j) sh m)) = interpN sh a p.
Proof.
  intros Hp Hl Hm. apply sumNC_ext. intros y Hy. f_equal. assert (Hly := inb_length _ _ Hy).
  rewrite <- (Dn_period sh (subR (toR y) p) (map Z.opp m)); auto.
  - f_equal. clear Hp Hy a. revert p m y Hl Hm Hly. induction sh as [|n sh IH]; intros [|p0 p] [|m0 m] [|y0 y] Hl Hm Hly; simpl in *; try discriminate; auto.
    unfold subR, addR, toR in *. simpl. rewrite IH by lia. f_equal. rewrite opp_IZR. ring.
  - rewrite subR_length, toR_length. lia.
  - rewrite map_length; auto.
Qed.

(** real data: the complex output is the conjugate of the trigonometric interpolant *)
Lemma interpN_real sh (a : list Z -> R) p : pos_shape sh -> length p = length sh ->
  interpN sh (fun y => RtoC (a y)) p = Cconj (trig_interp sh (fun y => RtoC (a y)) p).
Proof.
  intros Hp Hl. unfold trig_interp. rewrite Cconj_sumNC. apply sumNC_ext. intros y Hy.
  assert (Hly := inb_length _ _ Hy).
  rewrite Cconj_mult, Cconj_RtoC, <- Dn_dirichletN by auto. rewrite Dn_conj, oppR_subR. reflexivity.
Qed.
Lemma interpN_realpart sh (a : list Z -> R) p : pos_shape sh -> length p = length sh ->
  Re (interpN sh (fun y => RtoC (a y)) p) = trig_interpR sh a p.
Proof. intros Hp Hl. rewrite interpN_real by auto. rewrite Re_conj. apply trig_interp_Re. Qed.

Lemma interpN_lin sh a b (ca cb : C) p :
  interpN sh (fun i => Cplus (Cmult ca (a i)) (Cmult cb (b i))) p =
  Cplus (Cmult ca (interpN sh a p)) (Cmult cb (interpN sh b p)).
Proof.
  unfold interpN.
  rewrite (sumNC_ext sh _ (fun y => Cplus (Cmult ca (Cmult (a y) (Dn sh (subR (toR y) p))))
                                          (Cmult cb (Cmult (b y) (Dn sh (subR (toR y) p)))))) by (intros; ring).
  rewrite sumNC_plus, !sumNC_scal. ring.
Qed.
Lemma interpN_scal sh a (c : C) p : interpN sh (fun i => Cmult c (a i)) p = Cmult c (interpN sh a p).
Proof. unfold interpN. rewrite <- sumNC_scal. apply sumNC_ext. intros; ring. Qed.
Lemma interpN_sum sh m (a : Z -> list Z -> C) p :
  interpN sh (fun i => sumC m (fun j => a j i)) p = sumC m (fun j => interpN sh (a j) p).
Proof.
  unfold interpN. rewrite <- sumNC_sumC. apply sumNC_ext. intros y Hy. rewrite <- sumC_scal_r. reflexivity.
Qed.

(** ** shapes of the sums in the code *)
Lemma fdot1 n k t : fdot [n] [k] [t] = fftfreq n k * t.
Proof. simpl. ring. Qed.

Lemma interp1d_val n (a : list Z -> C) (p : R) : (0 < n)%Z ->
  sumC n (fun k => Cmult (idft [n] a [k]) (cis (- (2 * PI) * fftfreq n k * p))) = interpN [n] a [p].
Proof.
  intros Hn. assert (Hp : pos_shape [n]) by (repeat constructor; auto).
  unfold interpN. rewrite <- idft_recombine by auto. rewrite sumNC_cons. apply sumC_ext. intros k Hk.
  rewrite sumNC_nil, fdot1. f_equal. f_equal. ring.
Qed.

Lemma interp2d_val ny nx (a : list Z -> C) (p q : R) : (0 < ny)%Z -> (0 < nx)%Z ->
  sumC nx (fun l => Cmult (sumC ny (fun k => Cmult (cis (- (2 * PI) * (fftfreq ny k * p))) (idft [ny; nx] a [k; l])))
                          (cis (- (2 * PI) * (fftfreq nx l * q)))) = interpN [ny; nx] a [p; q].
Proof.
  intros Hy Hx. assert (Hp : pos_shape [ny; nx]) by (repeat constructor; auto).
  unfold interpN. rewrite <- idft_recombine by auto.
  change (sumNC [ny; nx]) with (fun f : list Z -> C => sumC ny (fun i => sumC nx (fun j => f [i; j]))). cbv beta.
  rewrite (sumC_ext nx _ (fun l => sumC ny (fun k => Cmult (idft [ny; nx] a [k; l]) (cis (- (2 * PI * fdot [ny; nx] [k; l] [p; q])))))).
  2:{ intros l Hl. rewrite <- sumC_scal_r. apply sumC_ext. intros k Hk.
      replace (- (2 * PI * fdot [ny; nx] [k; l] [p; q])) with (- (2 * PI) * (fftfreq ny k * p) + - (2 * PI) * (fftfreq nx l * q)) by (simpl; ring).
      rewrite cis_plus. ring. }
  rewrite <- (sumG_swap (RtoC 0) Cplus Cplus_comm Cplus_assoc Cplus_0_r). reflexivity.
Qed.

Lemma fourier_interp1d_ok env (data : arr C) n (out_x : arr R) m nt np rr :
  shape data = [n] -> (0 < n)%Z -> shape out_x = [m] ->
  exists r, fourier_interp1d env data out_x None nt np rr = Ok (pick_real rr r) /\ shape r = [m] /\
    forall j, (0 <= j < m)%Z -> get r [j] = interpN [n] (get data) [g1 out_x j].
Proof.
  intros Hs Hn Hm. unfold fourier_interp1d. destruct (get_ffts env nt np) as [fw iv] eqn:E.
  assert (Hi := get_ffts_inv env nt np). rewrite E in Hi. simpl in Hi.
  rewrite Hs. assert (Hp : pos_shape [n]) by (repeat constructor; auto).
  assert (Hc : check_freqs [n] = Ok tt).
  { unfold check_freqs. simpl. destruct (Z.eqb_spec n 0); [lia|reflexivity]. }
  rewrite Hc, Hm. simpl bind. rewrite check_fft_ok by auto. simpl.
  eexists. split; [reflexivity|]. split; [reflexivity|]. intros j Hj. simpl.
  rewrite <- interp1d_val by auto. apply sumC_ext. intros k Hk. unfold g1 at 1. rewrite (proj2 (Hi _)), Hs. reflexivity.
Qed.

Lemma fourier_interp1d_dx_ok env (data : arr C) n (out_x dx : arr R) m nt np rr :
  shape data = [n] -> (0 < n)%Z -> shape out_x = [m] -> shape dx = [n] ->
  exists r, fourier_interp1d env data out_x (Some dx) nt np rr = Ok (pick_real rr r) /\ shape r = [m] /\
    forall j, (0 <= j < m)%Z -> get r [j] = interpN [n] (get data) [np_interp n (g1 dx) IZR (g1 out_x j)].
Proof.
  intros Hs Hn Hm Hd. unfold fourier_interp1d. destruct (get_ffts env nt np) as [fw iv] eqn:E.
  assert (Hi := get_ffts_inv env nt np). rewrite E in Hi. simpl in Hi.
  rewrite Hs. assert (Hp : pos_shape [n]) by (repeat constructor; auto).
  assert (Hc : check_freqs [n] = Ok tt).
  { unfold check_freqs. simpl. destruct (Z.eqb_spec n 0); [lia|reflexivity]. }
  rewrite Hc, Hm. simpl bind. rewrite Hd. destruct (list_eq_dec Z.eq_dec [n] [n]) as [_|X]; [|congruence].
  simpl bind. rewrite check_fft_ok by auto. simpl.
  eexists. split; [reflexivity|]. split; [reflexivity|]. intros j Hj. simpl.
  rewrite <- interp1d_val by auto. apply sumC_ext. intros k Hk. unfold g1 at 1. rewrite (proj2 (Hi _)), Hs. reflexivity.
Qed.

(** the coordinate vectors denoted by [outinds] for 2-D data *)
Definition coords2 (o : indspec) (ys xs : arr R) : Prop :=
  axis_coords o 0 = Ok ys /\ axis_coords o 1 = Ok xs.

Lemma fourier_interp2d_ok env (data : arr C) ny nx o ys xs my mx nt np rr :
  shape data = [ny; nx] -> (0 < ny)%Z -> (0 < nx)%Z ->
  check_outinds 2 o = Ok tt -> coords2 o ys xs -> shape ys = [my] -> shape xs = [mx] ->
  exists r, fourier_interp2d env data o nt np rr = Ok (pick_real rr r) /\ shape r = [my; mx] /\
    forall i j, get r [i; j] = interpN [ny; nx] (get data) [g1 ys i; g1 xs j].
Proof.
  intros Hs Hy Hx Hchk [Hc1 Hc2] Hys Hxs. unfold fourier_interp2d.
  destruct (get_ffts env nt np) as [fw iv] eqn:E.
  assert (Hi := get_ffts_inv env nt np). rewrite E in Hi. simpl in Hi.
  unfold ndim. rewrite Hs. simpl length. rewrite Hchk. simpl bind.
  assert (Hp : pos_shape [ny; nx]) by (repeat constructor; auto).
  rewrite check_fft_ok by auto. simpl bind. rewrite Hc1, Hc2. simpl bind. rewrite Hys, Hxs.
  eexists. split; [reflexivity|]. split; [reflexivity|]. intros i j. simpl get.
  rewrite <- interp2d_val by auto. apply sumC_ext. intros l Hl. f_equal. apply sumC_ext. intros k Hk. f_equal.
  unfold g2. rewrite (proj2 (Hi _)), Hs. reflexivity.
Qed.

(** ** band-limited modes *)
Lemma fidx_unique n k m : (0 < n)%Z -> (0 <= k < n)%Z -> ((k - m) mod n = 0)%Z -> (- (n - 1) / 2 <= m <= (n - 1) / 2)%Z ->
  (2 * Z.abs m < n)%Z -> fidx n k = m.
Proof.
  intros Hn Hk Hc Hm H2. apply Z.mod_divide in Hc; [|lia]. destruct Hc as [q Hq].
  assert (Hh : ((n - 1) / 2 * 2 <= n - 1 < (n - 1) / 2 * 2 + 2)%Z).
  { assert (X := Z.div_mod (n - 1) 2 ltac:(lia)). assert (Y := Z.mod_pos_bound (n - 1) 2 ltac:(lia)). lia. }
  unfold fidx. destruct (Z.leb_spec k ((n - 1) / 2)).
  - assert (q = 0)%Z by nia. lia.
  - assert (q = 1)%Z by nia. lia.
Qed.

Lemma mode_interp n m (p : R) : (0 < n)%Z -> (2 * Z.abs m < n)%Z ->
  interpN [n] (fun y => match y with [x] => cis (2 * PI * (IZR m * IZR x / IZR n)) | _ => 0 end) [p]
  = cis (2 * PI * (IZR m * p / IZR n)).
Proof.
  intros Hn Hm. assert (Hp : pos_shape [n]) by (repeat constructor; auto).
  assert (Hn' : IZR n <> 0) by (apply IZR_neq0; lia).
  rewrite <- interp1d_val by auto.
  rewrite (sumC_ext n _ (fun k => Cmult (ind (Z.eqb ((k + m) mod n) 0)) (cis (- (2 * PI) * fftfreq n k * p)))).
  2:{ intros k Hk. f_equal. unfold idft. rewrite sumNC_cons. simpl prodZ. rewrite Z.mul_1_r.
      rewrite (sumC_ext n _ (fun j => cis (2 * PI * (IZR j * IZR (k + m) / IZR n)))).
      2:{ intros j Hj. rewrite sumNC_nil. simpl phZ. rewrite <- cis_plus. f_equal. rewrite plus_IZR. field. exact Hn'. }
      rewrite char_sum by auto. destruct (Z.eqb ((k + m) mod n) 0); simpl; [|ring].
      rewrite <- RtoC_mult, Rinv_l by exact Hn'. reflexivity. }
  set (k0 := ((- m) mod n)%Z).
  assert (Hk0 : (0 <= k0 < n)%Z) by (apply Z.mod_pos_bound; lia).
  rewrite (sumC_single n _ k0); auto.
  - assert (E : ((k0 + m) mod n = 0)%Z).
    { unfold k0. rewrite Zplus_mod_idemp_l. replace (- m + m)%Z with 0%Z by lia. apply Z.mod_0_l; lia. }
    rewrite E. simpl.
    assert (Ef : fidx n k0 = (- m)%Z).
    { apply fidx_unique; auto; [|split|lia].
      - replace (k0 - - m)%Z with (k0 + m)%Z by lia. exact E.
      - apply Z.div_le_upper_bound; lia.
      - apply Z.div_le_lower_bound; lia. }
    unfold fftfreq. rewrite Ef, opp_IZR, Cmult_1_l. f_equal. field. exact Hn'.
  - intros i Hi Hne. destruct (Z.eqb_spec ((i + m) mod n) 0) as [E|E]; simpl; [|ring].
    exfalso. apply Hne. unfold k0. apply Z.mod_divide in E; [|lia]. destruct E as [q Hq].
    replace (- m)%Z with (i + (- q) * n)%Z by lia. rewrite Z_mod_plus_full. symmetry. apply Z.mod_small; lia.
Qed.

(** ** np.interp *)
Lemma bracket_node n (xp : Z -> R) (i : Z) : (0 <= i < Z.of_nat n)%Z ->
  (forall a b, (0 <= a)%Z -> (a < b)%Z -> (b < Z.of_nat n)%Z -> xp a < xp b) -> bracket n xp (xp i) = i.
Proof.
  induction n as [|n IH]; intros Hi Hinc; [lia|]. simpl.
  destruct (Rle_dec (xp (Z.of_nat n)) (xp i)) as [H|H].
  - destruct (Z.eq_dec i (Z.of_nat n)) as [->|Hne]; auto.
    exfalso. assert (xp i < xp (Z.of_nat n)) by (apply Hinc; lia). lra.
  - destruct (Z.eq_dec i (Z.of_nat n)) as [->|Hne]; [exfalso; lra|].
    apply IH; [lia|]. intros; apply Hinc; lia.
Qed.
Lemma bracket_below n (xp : Z -> R) x : (forall i, (0 <= i < Z.of_nat n)%Z -> x < xp i) -> bracket n xp x = (-1)%Z.
Proof.
  induction n as [|n IH]; intros H; auto. simpl.
  destruct (Rle_dec (xp (Z.of_nat n)) x) as [L|L]; [exfalso; specialize (H (Z.of_nat n)); lra || (assert (x < xp (Z.of_nat n)) by (apply H; lia); lra)|].
  apply IH. intros; apply H; lia.
Qed.
Lemma bracket_top n (xp : Z -> R) x : (0 < n)%nat -> xp (Z.of_nat n - 1)%Z <= x -> bracket n xp x = (Z.of_nat n - 1)%Z.
Proof.
  destruct n as [|n]; [lia|]. intros _ H. replace (Z.of_nat (S n) - 1)%Z with (Z.of_nat n) in * by lia.
  simpl. destruct (Rle_dec (xp (Z.of_nat n)) x); [reflexivity|contradiction].
Qed.

Definition increasing (n : Z) (xp : Z -> R) : Prop := forall a b, (0 <= a)%Z -> (a < b)%Z -> (b < n)%Z -> xp a < xp b.

Lemma np_interp_node n xp fp i : (0 <= i < n)%Z -> increasing n xp -> np_interp n xp fp (xp i) = fp i.
Proof.
  intros Hi Hinc. unfold np_interp. rewrite bracket_node by (rewrite ?Z2Nat.id by lia; auto).
  destruct (Z.ltb_spec i 0); [lia|]. destruct (Z.eqb_spec i (n - 1)); auto.
  replace (xp i - xp i) with 0 by ring. ring.
Qed.
Lemma np_interp_left n xp fp x : (0 < n)%Z -> increasing n xp -> x <= xp 0%Z -> np_interp n xp fp x = fp 0%Z.
Proof.
  intros Hn Hinc Hx. destruct (Req_dec x (xp 0%Z)) as [->|Hne]; [apply np_interp_node; auto; lia|].
  unfold np_interp. rewrite bracket_below; [reflexivity|]. intros i Hi.
  destruct (Z.eq_dec i 0) as [->|H0]; [lra|].
  assert (xp 0%Z < xp i) by (apply Hinc; lia). lra.
Qed.
Lemma np_interp_right n xp fp x : (0 < n)%Z -> xp (n - 1)%Z <= x -> np_interp n xp fp x = fp (n - 1)%Z.
Proof.
  intros Hn Hx. unfold np_interp. rewrite bracket_top by (rewrite ?Z2Nat.id by lia; auto; lia).
  rewrite Z2Nat.id by lia. destruct (Z.ltb_spec (n - 1) 0); [lia|]. rewrite Z.eqb_refl. reflexivity.
Qed.
