(** C127: the raw Fourier upsampling of the tests (upsample_ft_raw) against dftups *)
From Coq Require Import ZArith Lia List Reals Lra Bool.
From Coquelicot Require Import Complex.
From Verif Require Import Base NDim DFT Kernel Num Py M_fast_ffts M_shift M_scale M_upsample M_kernel Arg M_chi2 M_xcorr M_register M_testing2
  Spec L_shift L_scale L_upsample L_register L_register3.
Import ListNotations.
Open Scope R_scope.

Lemma raw_slice_even a z : (0 < a)%Z -> (2 <= z)%Z -> raw_slice (2 * a) z = (a, 2 * a)%Z.
Proof.
  intros Ha Hz. unfold raw_slice. assert (z0 : IZR z <> 0) by (apply IZR_neq0; lia).
  replace (IZR (2 * a * z) / (IZR z * 2)) with (IZR a) by (rewrite !mult_IZR; field; auto).
  replace (IZR a * 3) with (IZR (3 * a)) by (rewrite mult_IZR; ring). rewrite !roundR_IZR. unfold pyslice.
  destruct (Z.ltb_spec a 0); [lia|]. destruct (Z.ltb_spec (3 * a) 0); [lia|].
  assert (4 * a <= 2 * a * z)%Z by nia. rewrite !Z.min_r by lia. f_equal. lia.
Qed.
(** a slice of another length than an odd axis *)
Lemma raw_slice_odd m z : Z.odd m = true -> (3 <= m)%Z -> (1 <= z)%Z -> can_assign m (snd (raw_slice m z)) = false.
Proof.
  intros Ho Hm Hz. unfold raw_slice. assert (z0 : IZR z <> 0) by (apply IZR_neq0; lia).
  replace (IZR (m * z) / (IZR z * 2)) with (IZR m / 2) by (rewrite mult_IZR; field; auto).
  apply Z.odd_spec in Ho. destruct Ho as [k Hk].
  assert (N : forall s t, (0 <= s)%Z -> (0 <= t)%Z -> (Z.max 0 (Z.min (m * z) t - Z.min (m * z) s) <> m)%Z -> can_assign m (snd (pyslice (m * z) s t)) = false).
  { intros s t Hs Ht Hl. unfold pyslice, can_assign. cbn [snd]. destruct (Z.ltb_spec s 0); [lia|]. destruct (Z.ltb_spec t 0); [lia|].
    destruct (Z.eqb_spec m (Z.max 0 (Z.min (m * z) t - Z.min (m * z) s))); [congruence|]. destruct (Z.eqb_spec m 1); [lia|reflexivity]. }
  assert (E : (k mod 2 = 0 \/ k mod 2 = 1)%Z) by (assert (Q := Z.mod_pos_bound k 2); lia). assert (D := Z_div_mod_eq_full k 2). set (j := (k / 2)%Z) in *.
  destruct E as [E | E].
  - assert (M : (m = 4 * j + 1)%Z) by lia.
    rewrite (roundR_unique (IZR m / 2) (2 * j)); [rewrite (roundR_unique (IZR m / 2 * 3) (6 * j + 2))|].
    + assert (Z1 : z = 1%Z \/ (2 * m <= m * z)%Z) by nia. apply N; [lia|lia|]. destruct Z1 as [-> | Z1]; lia.
    + right. rewrite M, !plus_IZR, !mult_IZR. split; [|rewrite Z.even_add, Z.even_mul; reflexivity]. match goal with |- Rabs ?X = _ => replace X with (- (1 / 2)) by field end. rewrite Rabs_Ropp, Rabs_right; lra.
    + right. rewrite M, !plus_IZR, !mult_IZR. split; [|rewrite Z.even_mul; reflexivity]. match goal with |- Rabs ?X = _ => replace X with (1 / 2) by field end. rewrite Rabs_right; lra.
  - assert (M : (m = 4 * j + 3)%Z) by lia.
    rewrite (roundR_unique (IZR m / 2) (2 * j + 2)); [rewrite (roundR_unique (IZR m / 2 * 3) (6 * j + 4))|].
    + assert (Z1 : z = 1%Z \/ (2 * m <= m * z)%Z) by nia. apply N; [lia|lia|]. destruct Z1 as [-> | Z1]; lia.
    + right. rewrite M, !plus_IZR, !mult_IZR. split; [|rewrite Z.even_add, Z.even_mul; reflexivity]. match goal with |- Rabs ?X = _ => replace X with (1 / 2) by field end. rewrite Rabs_right; lra.
    + right. rewrite M, !plus_IZR, !mult_IZR. split; [|rewrite Z.even_add, Z.even_mul; reflexivity]. match goal with |- Rabs ?X = _ => replace X with (- (1 / 2)) by field end. rewrite Rabs_Ropp, Rabs_right; lra.
Qed.
Lemma raw_slice_one m : (2 <= m)%Z -> can_assign m (snd (raw_slice m 1)) = false.
Proof.
  intros Hm. destruct (Z.odd m) eqn:O.
  - apply raw_slice_odd; auto; [|lia]. destruct (Z.eq_dec m 2) as [->|]; [discriminate|lia].
  - rewrite <- Z.negb_even in O. apply negb_false_iff in O. apply Z.even_spec in O. destruct O as [a ->]. unfold raw_slice.
    replace (IZR (2 * a * 1) / (1 * 2)) with (IZR a) by (rewrite !mult_IZR; field). replace (IZR a * 3) with (IZR (3 * a)) by (rewrite mult_IZR; ring). rewrite !roundR_IZR.
    unfold pyslice, can_assign. cbn [snd]. destruct (Z.ltb_spec a 0); [lia|]. destruct (Z.ltb_spec (3 * a) 0); [lia|].
    destruct (Z.eqb_spec (2 * a) (Z.max 0 (Z.min (2 * a * 1) (3 * a) - Z.min (2 * a * 1) a))); [lia|]. destruct (Z.eqb_spec (2 * a) 1); [lia|reflexivity].
Qed.

(** one axis: the centred samples in the slice, shifted back and summed *)
Lemma raw_sum1 a z (h : Z -> C) r : (0 < a)%Z -> (2 <= z)%Z ->
  let m := (2 * a)%Z in let N := (m * z)%Z in
  sumC N (fun K => Cmult (np_ifftshift N (fun p => if ((a <=? p) && (p <? a + m))%Z then np_fftshift m h (p - a)%Z else RtoC 0) K) (cis (2 * PI * (IZR K * IZR r / IZR N)))) =
  Cmult (cis (PI * (2 - IZR z) / IZR z * IZR r)) (sumC m (fun k => Cmult (h k) (cis (2 * PI * (fftfreq m k * (IZR r / IZR z)))))).
Proof.
  intros Ha Hz m N. assert (Hm : (0 < m)%Z) by lia. assert (HN : (0 < N)%Z) by (unfold N; nia). assert (N4 : (2 * m <= N)%Z) by (unfold N; nia).
  assert (a0 : IZR a <> 0) by (apply IZR_neq0; lia). assert (z0 : IZR z <> 0) by (apply IZR_neq0; lia).
  assert (H2 : (N / 2 = a * z)%Z) by (unfold N, m; replace (2 * a * z)%Z with (a * z * 2)%Z by ring; apply Z.div_mul; lia).
  assert (Hm2 : (m / 2 = a)%Z) by (unfold m; rewrite Z.mul_comm; apply Z.div_mul; lia).
  set (g := fun p => if ((a <=? p) && (p <? a + m))%Z then np_fftshift m h (p - a)%Z else RtoC 0).
  transitivity (sumC N (fun p => Cmult (g p) (cis (2 * PI * (IZR (p - N / 2) * IZR r / IZR N))))).
  { rewrite <- (sumC_mod_shift N (fun p => Cmult (g p) (cis (2 * PI * (IZR (p - N / 2) * IZR r / IZR N)))) (N / 2)%Z HN).
    apply sumC_ext. intros K HK. unfold np_ifftshift. f_equal.
    apply (cis_congr _ _ (((K + N / 2) / N) * r)). assert (D := Z_div_mod_eq_full (K + N / 2) N). set (q := ((K + N / 2) / N)%Z) in *.
    replace ((K + N / 2) mod N - N / 2)%Z with (K - N * q)%Z by lia. rewrite minus_IZR, !mult_IZR. field. apply IZR_neq0. lia. }
  replace N with (a + (m + (N - a - m)))%Z at 1 by ring. rewrite sumC_split by lia. rewrite sumC_split by lia.
  rewrite (sumC_const0 a). 2:{ intros p Hp. unfold g. destruct (Z.leb_spec a p); [lia|]. cbn [andb]. ring. }
  rewrite (sumC_const0 (N - a - m)). 2:{ intros p Hp. unfold g. destruct (Z.leb_spec a (a + (m + p))); [|lia]. destruct (Z.ltb_spec (a + (m + p)) (a + m)); [lia|]. cbn [andb]. ring. }
  transitivity (sumC m (fun q => Cmult (cis (PI * (2 - IZR z) / IZR z * IZR r)) (Cmult (h ((q - m / 2) mod m)%Z) (cis (2 * PI * (fftfreq m ((q - m / 2) mod m) * (IZR r / IZR z))))))).
  { rewrite Cplus_0_l, Cplus_0_r. apply sumC_ext. intros q Hq. unfold g. destruct (Z.leb_spec a (a + q)); [|lia]. destruct (Z.ltb_spec (a + q) (a + m)); [|lia]. cbn [andb].
    replace (a + q - a)%Z with q by ring. unfold np_fftshift.
    transitivity (Cmult (h ((q - m / 2) mod m)%Z) (Cmult (cis (PI * (2 - IZR z) / IZR z * IZR r)) (cis (2 * PI * (fftfreq m ((q - m / 2) mod m) * (IZR r / IZR z)))))); [|ring].
    f_equal. rewrite <- cis_plus. f_equal. unfold fftfreq. rewrite fidx_centred by auto. rewrite Hm2, H2. unfold N, m. rewrite !minus_IZR, !plus_IZR, !mult_IZR. field. auto. }
  rewrite sumC_scal. f_equal.
  exact (sumC_mod_shift m (fun k => Cmult (h k) (cis (2 * PI * (fftfreq m k * (IZR r / IZR z))))) (- (m / 2))%Z Hm).
Qed.

Section Raw.
Variables (m n z : Z) (F G : arr C).
Hypothesis Hm : (0 < m)%Z.
Hypothesis Hn : (0 < n)%Z.
Hypothesis Em : Z.even m = true.
Hypothesis En : Z.even n = true.
Hypothesis Hz : (2 <= z)%Z.
Hypothesis HF : shape F = [m; n].
Hypothesis HG : shape G = [m; n].
Let cc (k l : Z) : C := Cmult (g2 F k l) (Cconj (g2 G k l)).

Lemma raw_ok : exists raw, upsample_ft_raw true F G z = Ok raw /\ shape raw = [m * z; n * z]%Z /\
  forall r c, (0 <= r < m * z)%Z -> (0 <= c < n * z)%Z ->
    g2 raw r c = Cmult (RtoC (/ IZR (m * z * (n * z)))) (Cmult (cis (PI * (2 - IZR z) / IZR z * IZR (r + c)))
      (sumC m (fun k => sumC n (fun l => Cmult (cc k l) (cis (2 * PI * (fftfreq m k * (IZR r / IZR z) + fftfreq n l * (IZR c / IZR z)))))))).
Proof.
  apply Z.even_spec in Em, En. destruct Em as [a Ea]. destruct En as [b Eb].
  assert (Ha : (0 < a)%Z) by lia. assert (Hb : (0 < b)%Z) by lia. assert (HM : (0 < m * z)%Z) by nia. assert (HN : (0 < n * z)%Z) by nia.
  unfold upsample_ft_raw. rewrite HF, HG. destruct (Z.ltb_spec (m * z) 0); [lia|]. destruct (Z.ltb_spec (n * z) 0); [lia|]. rewrite !Z.eqb_refl. cbn [orb andb negb].
  destruct (Z.eqb_spec z 0); [lia|]. rewrite Ea, Eb, !raw_slice_even by lia. rewrite <- Ea, <- Eb. unfold can_assign. rewrite !Z.eqb_refl. cbn [orb andb negb].
  unfold check_fft. assert (P : pos_shapeb [(m * z)%Z; (n * z)%Z] = true) by (apply pos_shapeb_spec; repeat constructor; lia). rewrite P. cbn [bind].
  eexists. split; [reflexivity|]. split; [reflexivity|]. intros r c Hr Hc. unfold g2 at 1, np_ifftn. cbn [get shape mk2].
  unfold idft. cbn [prodZ]. replace (m * z * (n * z * 1))%Z with (m * z * (n * z))%Z by ring. f_equal.
  rewrite sumNC_cons.
  set (h := fun k l => cc k l).
  transitivity (sumC (m * z) (fun K => Cmult (np_ifftshift (m * z) (fun p => if ((a <=? p) && (p <? a + m))%Z then
      np_fftshift m (fun k => Cmult (cis (PI * (2 - IZR z) / IZR z * IZR c)) (sumC n (fun l => Cmult (cc k l) (cis (2 * PI * (fftfreq n l * (IZR c / IZR z))))))) (p - a)%Z else RtoC 0) K)
      (cis (2 * PI * (IZR K * IZR r / IZR (m * z)))))).
  - apply sumC_ext. intros K HK.
    transitivity (sumC (n * z) (fun L => Cmult (Cmult (ifftshift2 (m * z) (n * z) (fun i j => if ((a <=? i) && (i <? a + m) && (b <=? j) && (j <? b + n))%Z
        then Cmult (fftshift2 m n (g2 F) (source m (i - a)) (source n (j - b))) (Cconj (fftshift2 m n (g2 G) (source m (i - a)) (source n (j - b)))) else RtoC 0) K L)
        (cis (2 * PI * (IZR L * IZR c / IZR (n * z))))) (cis (2 * PI * (IZR K * IZR r / IZR (m * z)))))).
    { rewrite sumNC_sumC || idtac. apply sumC_ext. intros L HL. cbn [sumNC sumNG phZ]. rewrite Rplus_0_r.
      rewrite <- Cmult_assoc. f_equal. rewrite <- cis_plus. f_equal. ring. }
    rewrite sumC_scal_r. f_equal. unfold ifftshift2, np_ifftshift.
    set (p := ((K + m * z / 2) mod (m * z))%Z).
    destruct (((a <=? p) && (p <? a + m))%Z) eqn:I.
    + unfold np_fftshift. set (k := ((p - a - m / 2) mod m)%Z).
      assert (R1 := raw_sum1 b z (fun l => cc k l) c Hb Hz). cbv zeta in R1. rewrite <- Eb in R1. unfold np_ifftshift in R1. rewrite <- R1.
      apply sumC_ext. intros L HL. f_equal. cbn [andb].
      destruct ((b <=? (L + n * z / 2) mod (n * z))%Z && ((L + n * z / 2) mod (n * z) <? b + n)%Z) eqn:J; cbn [andb].
      * unfold source. destruct (Z.eqb_spec m 1); [lia|]. destruct (Z.eqb_spec n 1); [lia|]. reflexivity.
      * reflexivity.
    + apply sumC_const0. intros L HL. cbn [andb]. ring.
  - assert (R1 := raw_sum1 a z (fun k => Cmult (cis (PI * (2 - IZR z) / IZR z * IZR c)) (sumC n (fun l => Cmult (cc k l) (cis (2 * PI * (fftfreq n l * (IZR c / IZR z))))))) r Ha Hz).
    cbv zeta in R1. rewrite <- Ea in R1. rewrite R1. rewrite plus_IZR, Rmult_plus_distr_l, cis_plus, <- Cmult_assoc. f_equal.
    rewrite <- sumC_scal. apply sumC_ext. intros k Hk. rewrite <- Cmult_assoc. f_equal. rewrite <- sumC_scal_r. apply sumC_ext. intros l Hl.
    rewrite <- Cmult_assoc. f_equal. rewrite <- cis_plus. f_equal. ring.
Qed.
End Raw.

(** the product of the two spectra, as test_upsample passes it to dftups *)
Definition cross_spectrum (F G : arr C) : arr C := Arr (shape F) (fun k => Cmult (get F k) (Cconj (get G k))).

Theorem C127_raw_is_dftups :
  forall (F G : arr C) m n z, shape F = [m; n] -> shape G = [m; n] -> (0 < m)%Z -> (0 < n)%Z -> Z.even m = true -> Z.even n = true -> (2 <= z)%Z ->
  exists raw ups, upsample_ft_raw true F G z = Ok raw /\ shape raw = [m * z; n * z]%Z /\
    dftups (cross_spectrum F G) (Some (IZR (m * z))) (Some (IZR (n * z))) (IZR z) 0 0 = Ok ups /\ shape ups = [m * z; n * z]%Z /\
    forall r c, (0 <= r < m * z)%Z -> (0 <= c < n * z)%Z ->
      let mirrored := g2 ups ((- r) mod (m * z)) ((- c) mod (n * z)) in
      g2 raw r c = Cmult (RtoC (/ IZR (m * z * (n * z)))) (Cmult (cis (PI * (2 - IZR z) / IZR z * IZR (r + c))) mirrored) /\
      Cmod (g2 raw r c) = Cmod mirrored / IZR (m * z * (n * z)) /\
      (z = 2%Z -> g2 raw r c = Cmult (RtoC (/ IZR (m * z * (n * z)))) mirrored).
Proof.
  intros F G m n z HF HG Hm Hn Em En Hz. assert (HM : (0 < m * z)%Z) by nia. assert (HN : (0 < n * z)%Z) by nia. assert (z0 : IZR z <> 0) by (apply IZR_neq0; lia).
  destruct (raw_ok m n z F G Hm Hn Em En Hz HF HG) as [raw [R1 [R2 R3]]].
  destruct (dftups_ok (cross_spectrum F G) m n (Some (IZR (m * z))) (Some (IZR (n * z))) (IZR z) 0 0 HF Hm Hn z0) as [ups [U1 [U2 U3]]].
  exists raw, ups. split; [exact R1|]. split; [exact R2|]. split; [exact U1|]. split; [rewrite U2; unfold dft_len; rewrite !arange_len_IZR by lia; reflexivity|].
  intros r c Hr Hc mirrored.
  assert (P : forall k N0 w, (0 < N0)%Z -> cis (- (2 * PI) * (fftfreq N0 k * ((IZR ((- w) mod (N0 * z)) - 0) / IZR z))) = cis (2 * PI * (fftfreq N0 k * (IZR w / IZR z)))).
  { intros k N0 w H0. apply (cis_congr _ _ (((- w) / (N0 * z)) * fidx N0 k)). assert (D := Z_div_mod_eq_full (- w) (N0 * z)). set (q := ((- w) / (N0 * z))%Z) in *.
    replace ((- w) mod (N0 * z))%Z with (- w - N0 * z * q)%Z by lia. unfold fftfreq. rewrite minus_IZR, opp_IZR, !mult_IZR. assert (IZR N0 <> 0) by (apply IZR_neq0; lia). field. auto. }
  assert (E : g2 raw r c = Cmult (RtoC (/ IZR (m * z * (n * z)))) (Cmult (cis (PI * (2 - IZR z) / IZR z * IZR (r + c))) mirrored)).
  { rewrite R3 by auto. f_equal. f_equal. unfold mirrored. rewrite U3. unfold ups_val.
    rewrite (sumC_ext n _ (fun l => sumC m (fun k => Cmult (Cmult (cis (2 * PI * (fftfreq m k * (IZR r / IZR z)))) (get (cross_spectrum F G) [k; l])) (cis (2 * PI * (fftfreq n l * (IZR c / IZR z))))))).
    - rewrite sumC_swap. apply sumC_ext. intros l Hl. apply sumC_ext. intros k Hk. unfold cross_spectrum, g2. cbn [get]. rewrite Rmult_plus_distr_l, cis_plus. ring.
    - intros l Hl. rewrite sumC_scal_r. rewrite P by auto. f_equal. apply sumC_ext. intros k Hk. rewrite P by auto. reflexivity. }
  split; [exact E|]. split.
  - rewrite E, !Cmod_mult, Cmod_cis, Cmod_R, Rabs_right; [unfold Rdiv; ring|]. apply Rle_ge. left. apply Rinv_0_lt_compat, IZR_lt. nia.
  - intros ->. rewrite E. replace (PI * (2 - 2) / 2 * IZR (r + c)) with 0 by field. rewrite cis_0, Cmult_1_l. reflexivity.
Qed.
Print Assumptions C127_raw_is_dftups.

(** what test_upsample plots side by side: with zoom factor 2, dftus[::-1, ::-1] at (r, c) is the raw pixel (r+1, c+1) *)
Theorem C127_test_compares_neighbours :
  forall (F G : arr C) m n, shape F = [m; n] -> shape G = [m; n] -> (0 < m)%Z -> (0 < n)%Z -> Z.even m = true -> Z.even n = true ->
  exists raw ups, upsample_ft_raw true F G 2 = Ok raw /\
    dftups (cross_spectrum F G) (Some (IZR (m * 2))) (Some (IZR (n * 2))) 2 0 0 = Ok ups /\
    forall r c, (0 <= r < m * 2)%Z -> (0 <= c < n * 2)%Z ->
      g2 ups (m * 2 - 1 - r) (n * 2 - 1 - c) = Cmult (RtoC (IZR (m * 2 * (n * 2)))) (g2 raw ((r + 1) mod (m * 2)) ((c + 1) mod (n * 2))).
Proof.
  intros F G m n HF HG Hm Hn Em En.
  destruct (C127_raw_is_dftups F G m n 2 HF HG Hm Hn Em En ltac:(lia)) as [raw [ups [R1 [R2 [U1 [U2 R3]]]]]].
  exists raw, ups. split; [exact R1|]. split; [exact U1|]. intros r c Hr Hc.
  assert (B : forall N w, (0 < N)%Z -> (0 <= w < N)%Z -> ((- ((w + 1) mod N)) mod N = N - 1 - w)%Z).
  { intros N w H0 Hw. destruct (Z.eq_dec w (N - 1)) as [->|].
    - replace (N - 1 + 1)%Z with N by ring. rewrite Z_mod_same_full. replace (N - 1 - (N - 1))%Z with 0%Z by ring. apply Z.mod_0_l. lia.
    - rewrite (Z.mod_small (w + 1)) by lia. replace (- (w + 1))%Z with (N - 1 - w + (-1) * N)%Z by ring. rewrite Z_mod_plus_full. apply Z.mod_small. lia. }
  destruct (R3 ((r + 1) mod (m * 2))%Z ((c + 1) mod (n * 2))%Z) as [_ [_ R4]]; [apply Z.mod_pos_bound; lia|apply Z.mod_pos_bound; lia|].
  rewrite (R4 eq_refl), !B by lia. rewrite Cmult_assoc, <- RtoC_mult, Rinv_r by (apply IZR_neq0; nia). rewrite Cmult_1_l. reflexivity.
Qed.
Print Assumptions C127_test_compares_neighbours.

(** an odd axis (as in two of the three sizes of the test), or no upsampling: numpy cannot assign the spectrum to the slice *)
Theorem C127_odd_axis_raises :
  forall (F G : arr C) m n z, shape F = [m; n] -> shape G = [m; n] -> (0 < m)%Z -> (0 < n)%Z -> (1 <= z)%Z ->
  (Z.odd m = true /\ (3 <= m)%Z) \/ (Z.odd n = true /\ (3 <= n)%Z) \/ (z = 1%Z /\ ((2 <= m)%Z \/ (2 <= n)%Z)) ->
  upsample_ft_raw true F G z = Raise ValueError.
Proof.
  intros F G m n z HF HG Hm Hn Hz H. unfold upsample_ft_raw. rewrite HF, HG.
  destruct (Z.ltb_spec (m * z) 0); [nia|]. destruct (Z.ltb_spec (n * z) 0); [nia|]. rewrite !Z.eqb_refl. cbn [orb andb negb]. destruct (Z.eqb_spec z 0); [lia|].
  destruct (raw_slice m z) as [r0 rl] eqn:S1. destruct (raw_slice n z) as [c0 cl] eqn:S2.
  assert (K : can_assign m rl = false \/ can_assign n cl = false).
  { change rl with (snd (r0, rl)). change cl with (snd (c0, cl)). rewrite <- S1, <- S2.
    destruct H as [[O H]|[[O H]|[-> [H|H]]]]; [left|right|left|right]; auto using raw_slice_odd, raw_slice_one. }
  destruct K as [-> | ->]; rewrite ?andb_false_r; reflexivity.
Qed.
Print Assumptions C127_odd_axis_raises.
(** on Python 2 with numpy >= 1.12 it never works *)
Theorem C127_python2_raises :
  forall (F G : arr C) m n z, shape F = [m; n] -> shape G = [m; n] -> (0 < m)%Z -> (0 < n)%Z -> (1 <= z)%Z ->
  upsample_ft_raw false F G z = Raise TypeError.
Proof.
  intros F G m n z HF HG Hm Hn Hz. unfold upsample_ft_raw. rewrite HF, HG.
  destruct (Z.ltb_spec (m * z) 0); [nia|]. destruct (Z.ltb_spec (n * z) 0); [nia|]. rewrite !Z.eqb_refl. cbn [orb andb negb]. destruct (Z.eqb_spec z 0); [lia|]. reflexivity.
Qed.
Print Assumptions C127_python2_raises.

(** two constant 2x2 images: the raw upsampling is defined and nowhere zero; 99x99 raises *)
Example C127_nonvacuous :
  let F := np_fftn (mk2 2 2 (fun _ _ => RtoC 1)) in
  exists raw, upsample_ft_raw true F F 2 = Ok raw /\ shape raw = [4; 4]%Z /\ g2 raw 0 0 = RtoC 1 /\
    upsample_ft_raw true (mk2 99 99 (fun _ _ => RtoC 1)) (mk2 99 99 (fun _ _ => RtoC 1)) 2 = Raise ValueError.
Proof.
  intros F. destruct (raw_ok 2 2 2 F F ltac:(lia) ltac:(lia) eq_refl eq_refl ltac:(lia) eq_refl eq_refl) as [raw [R1 [R2 R3]]].
  exists raw. split; [exact R1|]. split; [exact R2|]. split.
  - rewrite R3 by lia. replace (PI * (2 - 2) / 2 * IZR (0 + 0)) with 0 by (cbn; field). rewrite cis_0, Cmult_1_l.
    assert (V : forall k l, (0 <= k < 2)%Z -> (0 <= l < 2)%Z -> g2 F k l = RtoC (if (k =? 0)%Z && (l =? 0)%Z then 4 else 0)).
    { assert (HS : forall k, (0 <= k < 2)%Z -> sumC 2 (fun y => cis (- (2 * PI * (IZR k * IZR y / IZR 2)))) = RtoC (if (k =? 0)%Z then 2 else 0)).
      { intros k Hk. change 2%Z with (0 + 1 + 1)%Z at 1. rewrite !sumC_S, sumC_0 by lia. assert (k = 0 \/ k = 1)%Z as [-> | ->] by lia; cbn [Z.eqb].
        - replace (- (2 * PI * (0 * IZR 0 / 2))) with 0 by field. replace (- (2 * PI * (0 * IZR (0 + 1) / 2))) with 0 by (cbn; field). rewrite cis_0, Cplus_0_l, <- RtoC_plus. f_equal; ring.
        - replace (- (2 * PI * (1 * IZR 0 / 2))) with 0 by (cbn; field). replace (- (2 * PI * (1 * IZR (0 + 1) / 2))) with (- PI) by (cbn; field). rewrite cis_0. unfold cis. rewrite cos_neg, sin_neg, cos_PI, sin_PI. apply C_eq_ReIm; unfold Re, Im; cbn; ring. }
      intros k l Hk Hl. unfold F, np_fftn, g2, dft. cbn [get shape mk2]. rewrite sumNC_cons.
      transitivity (sumC 2 (fun y => Cmult (cis (- (2 * PI * (IZR k * IZR y / IZR 2)))) (RtoC (if (l =? 0)%Z then 2 else 0)))).
      - apply sumC_ext. intros y Hy. rewrite <- HS by auto. rewrite <- sumC_scal. rewrite sumNC_cons. apply sumC_ext. intros x Hx. rewrite sumNC_nil. cbn [phZ get mk2]. rewrite Cmult_1_l, <- cis_plus. f_equal. ring.
      - rewrite sumC_scal_r, HS by auto. rewrite <- RtoC_mult. f_equal. destruct (k =? 0)%Z, (l =? 0)%Z; cbn; ring. }
    rewrite (sumC_single 2 _ 0%Z); [|lia|].
    + rewrite (sumC_single 2 _ 0%Z); [|lia|].
      * rewrite !V by lia. cbn [Z.eqb andb]. replace (2 * PI * (fftfreq 2 0 * (0 / 2) + fftfreq 2 0 * (0 / 2))) with 0 by field. rewrite cis_0, Cconj_RtoC, Cmult_1_r, <- !RtoC_mult. f_equal. change (2 * 2 * (2 * 2))%Z with 16%Z. field.
      * intros l Hl Nl. rewrite !V by lia. destruct (Z.eqb_spec l 0); [contradiction|]. cbn [Z.eqb andb]. ring.
    + intros k Hk Nk. apply sumC_const0. intros l Hl. rewrite !V by lia. destruct (Z.eqb_spec k 0); [contradiction|]. cbn [andb]. ring.
  - apply (C127_odd_axis_raises _ _ 99 99); try reflexivity; try lia. left. split; [reflexivity|lia].
Qed.
