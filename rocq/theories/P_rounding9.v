(** C125: rounding in shiftnd and shift2d, frequencies, phases and exponentials included *)
From Coq Require Import ZArith Lia List Reals Lra Bool.
From Coquelicot Require Import Complex.
From Verif Require Import Base NDim DFT Kernel Num Py Sum2 M_fast_ffts M_shift M_scale M_convolve M_correlate Arg M_chi2 M_xcorr M_register M_rounding M_rounding2 M_rounding3 M_rounding9
  Spec L_shift L_scale P_shift P_rounding P_rounding2 L_iterzoom2 L_rounding3 L_rounding6 L_rounding7 L_rounding8.
Import ListNotations.
Open Scope R_scope.
Notation l1 := P_rounding.l1.

(** exponentials of angles up to T are within eps *)
Definition accurate_exp (eps T : R) (B : zarith) : Prop := forall t, Rabs t <= T -> Cmod (Cminus (za_cis B t) (cis t)) <= eps.
(** the largest phase angle of the kernel *)
Definition largest_phase (offset : list R) (phase : R) : R := PI * fold_right Rplus 0 (map Rabs offset) + Rabs phase.
(** error of the kernel: exponentials within eps, phases computed with operations within mu, offsets within d *)
Definition kernel_error (eps mu : R) (offset : list R) (phase : R) (d : list R) : R :=
  eps + largest_phase offset phase * ((1 + mu) ^ (length offset + 7) - 1) + PI * fold_right Rplus 0 d.
Definition abs_rounding (mu : R) (return_abs return_real : bool) : R := if return_real then 1 else if return_abs then 1 + mu else 1.
(** error of a pixel of the shifted image *)
Definition shift_error (eps mu : R) (data : arr cnum) (offset : list R) (phase : R) (d : list R) (return_abs return_real : bool) : R :=
  abs_sumC data * (abs_rounding mu return_abs return_real * ((1 + eps) ^ 3 * (1 + kernel_error eps mu offset phase d)) - 1).

Section Phases.
Variables (mu : R) (S : sarith).
Hypothesis HR : rounds mu S.
Let m0 : 0 <= mu. Proof. exact (proj1 HR). Qed.
Notation P k := ((1 + mu) ^ k).

Lemma fftfreq_near n k : (0 < n)%Z -> (0 <= k < n)%Z -> near (P 2) (1 / 2) (fftfreq_fp S n k) (fftfreq n k).
Proof.
  intros Hn Hk. assert (N0 : 0 < IZR n) by (apply IZR_lt; auto). assert (I0 : 0 < / IZR n) by (apply Rinv_0_lt_compat; auto).
  assert (H1 : near (P 1) (1 / IZR n) (sa_rd S (1 / IZR n)) (1 / IZR n)).
  { apply (nearR mu S HR 0). apply (nearx mu S HR). rewrite Rabs_right; unfold Rdiv; lra. }
  assert (H2 := near_scal _ _ (IZR (fidx n k)) _ _ H1). apply (nearR mu S HR 1) in H2.
  replace (IZR (fidx n k) * (1 / IZR n)) with (fftfreq n k) in H2 by (unfold fftfreq; field; lra).
  apply (near_more _ _ (1 / 2)) in H2; [exact H2|].
  assert (Q := fidx_half n k Hn Hk). apply (Rmult_le_reg_r (IZR n)); auto. replace (Rabs (IZR (fidx n k)) * (1 / IZR n) * IZR n) with (Rabs (IZR (fidx n k))) by (field; lra). lra.
Qed.
Lemma term_near off n k : (0 < n)%Z -> (0 <= k < n)%Z -> near (P 3) (Rabs off / 2) (sa_rd S (off * fftfreq_fp S n k)) (off * fftfreq n k).
Proof.
  intros Hn Hk. apply (nearR mu S HR 2). apply (near_eq (P 2) _ (Rabs off * (1 / 2))); [|reflexivity|field].
  apply near_scal. apply fftfreq_near; auto.
Qed.
Lemma terms_near offset : forall sh k j M acc' acc, pos_shape sh -> inb sh k -> near (P (3 + j)) M acc' acc ->
  near (P (3 + j + length offset)) (M + fold_right Rplus 0 (map Rabs offset) / 2) (fold_left (fun acc x => sa_rd S (acc + x)) (freq_terms_fp S offset sh k) acc') (acc + freq_grid offset sh k).
Proof.
  induction offset as [|o os IH]; intros sh k j M acc' acc Hp Hk H.
  - cbn. rewrite Nat.add_0_r. apply (near_eq _ (P (3 + j)) _ (M + 0 / 2)) in H; [|reflexivity|field]. replace (acc + 0) with acc by ring. exact H.
  - assert (SA : 0 <= fold_right Rplus 0 (map Rabs (o :: os))) by (generalize (o :: os); intros l; induction l as [|x l IHl]; cbn; [lra|assert (Q := Rabs_pos x); lra]).
    assert (D : forall acc', near (P (3 + j)) M acc' acc -> near (P (3 + j + length (o :: os))) (M + fold_right Rplus 0 (map Rabs (o :: os)) / 2) acc' (acc + 0)).
    { intros a' Ha. replace (acc + 0) with acc by ring. apply (nearw mu S HR (3 + j)); [|lia]. apply (near_more _ M); [exact Ha|lra]. }
    destruct sh as [|n sh]; [apply D; exact H|]. destruct k as [|k0 k]; [apply D; exact H|].
    cbn [freq_terms_fp freq_grid fold_left map fold_right length]. apply pos_shape_cons in Hp. destruct Hp as [Hn Hs]. cbn [inb] in Hk. destruct Hk as [Hk0 Hk].
    assert (T := term_near o n k0 Hn Hk0). apply (nearw mu S HR 3 (3 + j)) in T; [|lia].
    assert (H2 := near_add _ _ _ _ _ _ _ H T). apply (nearR mu S HR) in H2.
    assert (G := IH sh k (Datatypes.S j) _ _ _ Hs Hk (near_eq _ (P (3 + Datatypes.S j)) _ (M + Rabs o / 2) _ _ H2 (f_equal (fun i => P i) (eq_sym (Nat.add_succ_r 3 j))) eq_refl)).
    rewrite <- Rplus_assoc. apply (near_eq _ (P (3 + j + Datatypes.S (length os))) _ (M + (Rabs o + fold_right Rplus 0 (map Rabs os)) / 2)) in G; [exact G| |field].
    f_equal. lia.
Qed.
Lemma grid_near offset sh k : pos_shape sh -> inb sh k ->
  near (P (3 + length offset)) (fold_right Rplus 0 (map Rabs offset) / 2) (freq_grid_fp S offset sh k) (freq_grid offset sh k).
Proof.
  intros Hp Hk. assert (Q := terms_near offset sh k 0 0 0 0 Hp Hk ltac:(apply (nearx mu S HR); rewrite Rabs_R0; lra)).
  apply (near_eq _ (P (3 + length offset)) _ (fold_right Rplus 0 (map Rabs offset) / 2)) in Q; [|f_equal; lia|field]. rewrite Rplus_0_l in Q. exact Q.
Qed.
Lemma angle_near phase fg' fg F n : near (P (3 + n)) F fg' fg -> 
  near (P (n + 7)) (2 * PI * F + Rabs phase) (phase_angle_fp S phase fg') (- (2 * PI * fg) - phase).
Proof.
  intros H. assert (PP := PI_RGT_0). unfold phase_angle_fp.
  assert (H1 : near (P 2) (2 * PI) (- sa_rd S (2 * sa_rd S PI)) (- (2 * PI))).
  { apply near_opp. apply (nearR mu S HR 1). apply (near_eq (P 1) _ (Rabs 2 * PI)); [|reflexivity|rewrite Rabs_right; lra]. apply near_scal.
    apply (nearR mu S HR 0). apply (nearx mu S HR). rewrite Rabs_right; lra. }
  assert (H2 := near_mul _ _ _ _ _ _ _ _ H1 H). rewrite <- pow_add in H2. apply (nearR mu S HR) in H2.
  assert (H3 : near (P (Datatypes.S (2 + (3 + n)))) (Rabs phase) phase phase) by (apply (nearx mu S HR); lra).
  assert (H4 := near_sub _ _ _ _ _ _ _ H2 H3). apply (nearR mu S HR) in H4.
  replace (- (2 * PI * fg) - phase) with (- (2 * PI) * fg - phase) by ring.
  refine (near_eq _ _ _ _ _ _ H4 _ eq_refl). f_equal. lia.
Qed.

Lemma cis_near eps T B M n t' t : accurate_exp eps T B -> near (P n) M t' t -> M * P n <= T -> Cmod (Cminus (za_cis B t') (cis t)) <= eps + M * (P n - 1).
Proof.
  intros HB H HT. assert (A := near_abs _ _ _ _ H). destruct H as [_ [H _]]. specialize (HB t' ltac:(lra)).
  replace (Cminus (za_cis B t') (cis t)) with (Cplus (Cminus (za_cis B t') (cis t')) (Cminus (cis t') (cis t))) by ring.
  refine (Rle_trans _ _ _ (Cmod_triangle _ _) _). assert (L := cis_lip t' t). lra.
Qed.
End Phases.

(** the exact phases of two offsets *)
Inductive within_each : list R -> list R -> list R -> Prop :=
  | within_nil : within_each [] [] []
  | within_cons d x y ds xs ys : Rabs (x - y) <= d -> within_each ds xs ys -> within_each (d :: ds) (x :: xs) (y :: ys).
Lemma grid_lip ds off' off : within_each ds off' off -> forall sh k, pos_shape sh -> inb sh k -> Rabs (freq_grid off' sh k - freq_grid off sh k) <= fold_right Rplus 0 ds / 2.
Proof.
  induction 1 as [|d x y ds xs ys H W IH]; intros sh k Hp Hk.
  - cbn. rewrite Rminus_0_r, Rabs_R0. lra.
  - assert (N : 0 <= fold_right Rplus 0 (d :: ds)).
    { cbn. assert (Q := Rabs_pos (x - y)). assert (0 <= fold_right Rplus 0 ds); [|lra]. clear - W. induction W as [|a p q ds xs ys H W IH]; cbn; [lra|]. assert (Q := Rabs_pos (p - q)). lra. }
    destruct sh as [|n sh]; [cbn [freq_grid]; rewrite Rminus_0_r, Rabs_R0; lra|]. destruct k as [|k0 k]; [destruct Hk|].
    apply pos_shape_cons in Hp. destruct Hp as [Hn Hs]. cbn [inb] in Hk. destruct Hk as [Hk0 Hk]. specialize (IH sh k Hs Hk). cbn [freq_grid fold_right].
    replace (x * fftfreq n k0 + freq_grid xs sh k - (y * fftfreq n k0 + freq_grid ys sh k)) with ((x - y) * fftfreq n k0 + (freq_grid xs sh k - freq_grid ys sh k)) by ring.
    refine (Rle_trans _ _ _ (Rabs_triang _ _) _). rewrite Rabs_mult. assert (F := fftfreq_half n k0 Hn Hk0).
    assert (Q : Rabs (x - y) * Rabs (fftfreq n k0) <= d * (1 / 2)) by (apply Rmult_le_compat; auto using Rabs_pos). lra.
Qed.

Section Shift.
Variables (eps mu T : R) (A : arith) (B : zarith) (S : sarith) (sh : list Z).
Hypothesis (HA : accurate eps sh A) (HB : accurate_exp eps T B) (HR : rounds mu S) (Hp : pos_shape sh).
Let e0 : 0 <= eps. Proof. exact (proj1 HA). Qed.
Let m0 : 0 <= mu. Proof. exact (proj1 HR). Qed.

Lemma pick_fp_near ra rr (x' x : arr C) p M : shape x' = sh -> shape x = sh -> 0 <= M -> (forall i, inb sh i -> nearC p M (get x' i) (get x i)) ->
  within_pixelwise (M * (abs_rounding mu ra rr * p - 1)) (pick_fp S ra rr x') (pick ra rr x).
Proof.
  intros Sx' Sx HM H. unfold pick_fp, pick, abs_rounding. destruct rr; [|destruct ra]; cbn [within_pixelwise amap shape get]; (split; [congruence|]); rewrite Sx'; intros i Hi; specialize (H i Hi).
  - rewrite Rmult_1_l. apply (nearC_Re _ _ _ _ H).
  - apply nearC_mod in H. assert (Q := near_rel mu _ _ (sa_rd S (Cmod (get x' i))) _ _ m0 H (proj2 HR _)). apply Q.
  - rewrite Rmult_1_l. apply H.
Qed.
(** the computation after the kernel *)
Lemma after_kernel hf nt np ra rr (data : arr cnum) (kernel' kernel : list Z -> C) ke : shape data = sh -> 0 <= ke ->
  (forall k, inb sh k -> Cmod (Cminus (kernel' k) (kernel k)) <= ke /\ Cmod (kernel k) = 1) ->
  within_pixelwise (abs_sumC data * (abs_rounding mu ra rr * ((1 + eps) ^ 3 * (1 + ke)) - 1))
    (pick_fp S ra rr (ar_ifft A (Arr sh (fun k => ar_mul A (get (ar_fft A (clean_nan data)) k) (kernel' k)))))
    (pick ra rr (snd (get_ffts hf nt np) (Arr sh (fun k => Cmult (get (fst (get_ffts hf nt np) (clean_nan data)) k) (kernel k))))).
Proof.
  intros Hs Hke HK. set (X := clean_nan data). assert (SX : shape X = sh) by exact Hs.
  assert (EX : X = Arr sh (get X)) by (unfold X, clean_nan, amap; cbn [get]; rewrite Hs; reflexivity).
  assert (L1 : abs_sumC data = l1 sh (get X)) by (unfold abs_sumC, P_rounding.l1; rewrite Hs; reflexivity).
  assert (L0 := P_rounding.l1_nonneg sh (get X)). rewrite L1.
  apply pick_fp_near; auto.
  - apply (proj1 (proj2 (proj2 HA)) (Arr sh _) eq_refl).
  - exact (proj1 (get_ffts_inv hf nt np _)).
  - intros i Hi.
    match goal with |- nearC _ _ _ ?w => assert (EQ : w = idft sh (fun k => Cmult (dft sh (get X) k) (kernel k)) i) end.
    { refine (eq_trans (proj2 (get_ffts_inv hf nt np _) i) _). cbn [shape get]. apply idft_ext. intros q Hq. cbn [get]. rewrite !(proj2 (get_ffts_fwd hf nt np _)), SX. reflexivity. }
    rewrite EQ. clear EQ.
    apply (nearC_eq ((1 + eps) * ((1 + eps) * ((1 + eps) * (1 + ke)))) _ (l1 sh (get X) * 1)); [|ring|ring].
    apply (near_ifftN eps sh A HA Hp); auto; [lra| |].
    + assert (Q1 := Rmult_le_pos _ _ e0 Hke). assert (Q2 : 1 <= (1 + eps) * (1 + ke)) by lra. assert (Q3 : 0 <= eps * ((1 + eps) * (1 + ke))) by (apply Rmult_le_pos; lra). lra.
    + intros k Hk. apply (nearC_mul eps sh A _ _ _ _ _ _ _ _ HA).
      * assert (F0 : forall i, inb sh i -> nearC 1 (Cmod (get X i)) (get X i) (get X i)) by (intros j _; apply nearC_refl; apply Rle_refl).
        assert (F := near_fftN eps sh A HA (get X) (get X) (fun i => Cmod (get X i)) 1 k (Rle_refl 1) F0 Hk).
        rewrite <- EX in F. apply (nearC_eq _ (1 + eps) _ (l1 sh (get X))) in F; [exact F|ring|reflexivity].
      * destruct (HK k Hk) as [K1 K2]. split; [lra|]. split; [lra|lra].
Qed.
End Shift.

(** Called with offsets within d of the given ones, shiftnd with every operation rounded returns the exactly shifted image up to
    the error, and raises the same exceptions. *)
Theorem C125_shiftnd :
  forall eps mu T A B S has_fftw data offset offset' d phase nthreads use_np ret_abs ret_real,
  accurate eps (shape data) A -> accurate_exp eps T B -> rounds mu S ->
  within_each d offset' offset ->
  largest_phase offset' phase * (1 + mu) ^ (length offset' + 7) <= T ->
  match shiftnd has_fftw data offset phase nthreads use_np ret_abs ret_real with
  | Ok r => exists r', shiftnd_fp A B S data offset' phase ret_abs ret_real = Ok r' /\
              within_pixelwise (shift_error eps mu data offset' phase d ret_abs ret_real) r' r
  | Raise e => shiftnd_fp A B S data offset' phase ret_abs ret_real = Raise e
  end.
Proof.
  intros eps mu T A B S hf data off off' d ph nt np ra rr HA HB HR W HT. rewrite <- shiftnd_exact. unfold shiftnd_with, shiftnd_fp.
  assert (EC : map snd (combine off' (shape data)) = map snd (combine off (shape data))).
  { generalize (shape data). clear - W. induction W as [|a x y ds xs ys H W IH]; intros sh; [reflexivity|]. destruct sh as [|n sh]; [reflexivity|]. cbn. f_equal. apply IH. }
  rewrite EC. destruct (check_freqs _); [|reflexivity]. cbn [bind]. unfold check_fft. destruct (pos_shapeb (shape data)) eqn:EP; [|reflexivity]. cbn [bind].
  apply pos_shapeb_spec in EP. eexists. split; [reflexivity|].
  set (sh := shape data) in *. assert (e0 := proj1 HA). assert (PP := PI_RGT_0). unfold shift_error.
  assert (SD : 0 <= fold_right Rplus 0 d) by (clear - W; induction W as [|a x y ds xs ys H W IH]; cbn; [lra|assert (Q := Rabs_pos (x - y)); lra]).
  assert (SO : 0 <= fold_right Rplus 0 (map Rabs off')) by (generalize off'; intros l; induction l as [|x l IHl]; cbn; [lra|assert (Q := Rabs_pos x); lra]).
  assert (PW : 1 <= (1 + mu) ^ (length off' + 7)) by (apply (P1 mu S HR)).
  assert (LP : 0 <= largest_phase off' ph) by (unfold largest_phase; assert (Q := Rabs_pos ph); assert (0 <= PI * fold_right Rplus 0 (map Rabs off')) by (apply Rmult_le_pos; lra); lra).
  assert (KE : 0 <= kernel_error eps mu off' ph d).
  { unfold kernel_error. assert (0 <= largest_phase off' ph * ((1 + mu) ^ (length off' + 7) - 1)) by (apply Rmult_le_pos; lra). assert (0 <= PI * fold_right Rplus 0 d) by (apply Rmult_le_pos; lra). lra. }
  apply (after_kernel eps mu A S sh HA HR EP hf nt np ra rr data
    (fun k => za_cis B (phase_angle_fp S ph (freq_grid_fp S off' sh k))) (fun k => cis (- (2 * PI * freq_grid off sh k) - ph)) _ eq_refl KE).
  intros k Hk. split; [|apply Cmod_cis].
  assert (G := grid_near mu S HR off' sh k EP Hk). assert (AN := angle_near mu S HR ph _ _ _ _ G).
  apply (near_eq _ ((1 + mu) ^ (length off' + 7)) _ (largest_phase off' ph)) in AN; [|reflexivity|unfold largest_phase; field].
  assert (C1 := cis_near mu eps T B _ _ _ _ HB AN HT).
  assert (GL := grid_lip d off' off W sh k EP Hk). assert (C2 := cis_lip (- (2 * PI * freq_grid off' sh k) - ph) (- (2 * PI * freq_grid off sh k) - ph)).
  replace (- (2 * PI * freq_grid off' sh k) - ph - (- (2 * PI * freq_grid off sh k) - ph)) with (- (2 * PI) * (freq_grid off' sh k - freq_grid off sh k)) in C2 by ring.
  rewrite Rabs_mult, Rabs_Ropp, (Rabs_right (2 * PI)) in C2 by lra.
  assert (GL2 := Rmult_le_compat_l (2 * PI) _ _ ltac:(lra) GL).
  replace (Cminus (za_cis B (phase_angle_fp S ph (freq_grid_fp S off' sh k))) (cis (- (2 * PI * freq_grid off sh k) - ph))) with
    (Cplus (Cminus (za_cis B (phase_angle_fp S ph (freq_grid_fp S off' sh k))) (cis (- (2 * PI * freq_grid off' sh k) - ph)))
       (Cminus (cis (- (2 * PI * freq_grid off' sh k) - ph)) (cis (- (2 * PI * freq_grid off sh k) - ph)))) by ring.
  refine (Rle_trans _ _ _ (Cmod_triangle _ _) _). unfold kernel_error. lra.
Qed.
Print Assumptions C125_shiftnd.

(** the same for shift2d *)
Theorem C125_shift2d :
  forall eps mu T A B S has_fftw data deltax deltay deltax' deltay' dx dy phase nthreads use_np ret_abs ret_real,
  accurate eps (shape data) A -> accurate_exp eps T B -> rounds mu S ->
  Rabs (deltax' - deltax) <= dx -> Rabs (deltay' - deltay) <= dy ->
  largest_phase [deltay'; deltax'] phase * (1 + mu) ^ 9 <= T ->
  match shift2d has_fftw data deltax deltay phase nthreads use_np ret_abs ret_real with
  | Ok r => exists r', shift2d_fp A B S data deltax' deltay' phase ret_abs ret_real = Ok r' /\
              within_pixelwise (shift_error eps mu data [deltay'; deltax'] phase [dy; dx] ret_abs ret_real) r' r
  | Raise e => shift2d_fp A B S data deltax' deltay' phase ret_abs ret_real = Raise e
  end.
Proof.
  intros eps mu T A B S hf data ax ay ax' ay' dx dy ph nt np ra rr HA HB HR Hx Hy HT. unfold shift2d, shift2d_fp.
  assert (EG : exists f g, get_ffts hf nt np = (f, g)) by (destruct (get_ffts hf nt np); eauto). destruct EG as [f [g EG]]. rewrite EG.
  destruct (shape data) as [|ny [|nx [|]]] eqn:ES; try reflexivity.
  destruct (check_freqs [nx]); [|reflexivity]. cbn [bind]. destruct (check_freqs [ny]); [|reflexivity]. cbn [bind].
  unfold check_fft. destruct (pos_shapeb [ny; nx]) eqn:EP; [|reflexivity]. cbn [bind]. apply pos_shapeb_spec in EP. eexists. split; [reflexivity|].
  assert (e0 := proj1 HA). assert (m0 := proj1 HR). assert (PP := PI_RGT_0). unfold shift_error.
  assert (D1 := Rabs_pos (ax' - ax)). assert (D2 := Rabs_pos (ay' - ay)). assert (O1 := Rabs_pos ax'). assert (O2 := Rabs_pos ay').
  assert (PW : 1 <= (1 + mu) ^ 9) by (apply (P1 mu S HR)).
  assert (LE : largest_phase [ay'; ax'] ph = PI * (Rabs ay' + Rabs ax') + Rabs ph) by (unfold largest_phase; cbn [map fold_right]; ring).
  assert (LP : 0 <= largest_phase [ay'; ax'] ph) by (rewrite LE; assert (Q := Rabs_pos ph); assert (0 <= PI * (Rabs ay' + Rabs ax')) by (apply Rmult_le_pos; lra); lra).
  assert (KEQ : kernel_error eps mu [ay'; ax'] ph [dy; dx] = eps + largest_phase [ay'; ax'] ph * ((1 + mu) ^ 9 - 1) + PI * (dy + dx)) by (unfold kernel_error; cbn [length fold_right Nat.add]; ring).
  assert (KE : 0 <= kernel_error eps mu [ay'; ax'] ph [dy; dx]).
  { rewrite KEQ. assert (0 <= largest_phase [ay'; ax'] ph * ((1 + mu) ^ 9 - 1)) by (apply Rmult_le_pos; lra). assert (0 <= PI * (dy + dx)) by (apply Rmult_le_pos; lra). lra. }
  assert (Q := after_kernel eps mu A S [ny; nx] HA HR EP hf nt np ra rr data
    (get (mk2 ny nx (fun i j => za_cis B (phase_angle_fp S ph (sa_rd S (sa_rd S (ax' * fftfreq_fp S nx j) + sa_rd S (ay' * fftfreq_fp S ny i)))))))
    (get (mk2 ny nx (fun i j => cis (- (2 * PI * (ax * fftfreq nx j + ay * fftfreq ny i)) - ph)))) _ ES KE).
  rewrite EG in Q. apply Q. clear Q. intros k Hk. apply inb2 in Hk. destruct Hk as [i [j [-> [Hi Hj]]]]. cbn [get mk2]. split; [|apply Cmod_cis].
  assert (Ny : (0 < ny)%Z) by lia. assert (Nx : (0 < nx)%Z) by lia.
  assert (G : near ((1 + mu) ^ (3 + 2)) ((Rabs ax' + Rabs ay') / 2) (sa_rd S (sa_rd S (ax' * fftfreq_fp S nx j) + sa_rd S (ay' * fftfreq_fp S ny i))) (ax' * fftfreq nx j + ay' * fftfreq ny i)).
  { apply (nearw mu S HR 4); [|lia]. apply (nearR mu S HR 3). apply (near_eq ((1 + mu) ^ 3) _ (Rabs ax' / 2 + Rabs ay' / 2)); [|reflexivity|field].
    apply near_add; apply (term_near mu S HR); auto. }
  assert (AN := angle_near mu S HR ph _ _ _ _ G). apply (near_eq _ ((1 + mu) ^ 9) _ (largest_phase [ay'; ax'] ph)) in AN; [|reflexivity|rewrite LE; field].
  assert (C1 := cis_near mu eps T B _ _ _ _ HB AN HT).
  assert (FX := fftfreq_half nx j Nx Hj). assert (FY := fftfreq_half ny i Ny Hi).
  assert (GL : Rabs ((ax' - ax) * fftfreq nx j + (ay' - ay) * fftfreq ny i) <= (dy + dx) / 2).
  { refine (Rle_trans _ _ _ (Rabs_triang _ _) _). rewrite !Rabs_mult.
    assert (Q1 : Rabs (ax' - ax) * Rabs (fftfreq nx j) <= dx * (1 / 2)) by (apply Rmult_le_compat; auto using Rabs_pos).
    assert (Q2 : Rabs (ay' - ay) * Rabs (fftfreq ny i) <= dy * (1 / 2)) by (apply Rmult_le_compat; auto using Rabs_pos). lra. }
  set (fg' := ax' * fftfreq nx j + ay' * fftfreq ny i) in *. set (fg := ax * fftfreq nx j + ay * fftfreq ny i) in *.
  assert (C2 := cis_lip (- (2 * PI * fg') - ph) (- (2 * PI * fg) - ph)).
  replace (- (2 * PI * fg') - ph - (- (2 * PI * fg) - ph)) with (- (2 * PI) * ((ax' - ax) * fftfreq nx j + (ay' - ay) * fftfreq ny i)) in C2 by (unfold fg, fg'; ring).
  rewrite Rabs_mult, Rabs_Ropp, (Rabs_right (2 * PI)) in C2 by lra.
  assert (GL2 := Rmult_le_compat_l (2 * PI) _ _ ltac:(lra) GL).
  match goal with |- Cmod (Cminus ?z ?w) <= _ => replace (Cminus z w) with (Cplus (Cminus z (cis (- (2 * PI * fg') - ph))) (Cminus (cis (- (2 * PI * fg') - ph)) w)) by ring end.
  refine (Rle_trans _ _ _ (Cmod_triangle _ _) _). rewrite KEQ. lra.
Qed.
Print Assumptions C125_shift2d.

Lemma within_each_zero l : within_each (map (fun _ => 0) l) l l.
Proof. induction l as [|x l IH]; constructor; auto. replace (x - x) with 0 by ring. rewrite Rabs_R0. lra. Qed.

(** shifts by whole numbers of pixels are cyclic rolls up to the error *)
Theorem C125_integer_shift_is_roll :
  forall eps mu T A B S (img : arr num) (k : list Z) phase ret_abs,
  pos_shape (shape img) -> length k = ndim img ->
  accurate eps (shape img) A -> accurate_exp eps T B -> rounds mu S ->
  largest_phase (map IZR k) phase * (1 + mu) ^ (length k + 7) <= T ->
  exists out, shiftnd_fp A B S (of_num img) (map IZR k) phase ret_abs true = Ok (RealArr out) /\ shape out = shape img /\
    forall x, inb (shape img) x ->
      Rabs (get out x - cos phase * nan0 (get (roll img k) x)) <=
        sumNR (shape img) (fun i => Rabs (nan0 (get img i))) *
          ((1 + eps) ^ 3 * (1 + (eps + largest_phase (map IZR k) phase * ((1 + mu) ^ (length k + 7) - 1))) - 1).
Proof.
  intros eps mu T A B S img k ph ra Hp Hl HA HB HR HT. destruct (C01_integer_shift_is_roll true img k ph 1 false ra Hp Hl) as [o [E [So Ho]]].
  assert (Q := C125_shiftnd eps mu T A B S true (of_num img) (map IZR k) (map IZR k) _ ph 1 false ra true HA HB HR (within_each_zero _) ltac:(rewrite map_length; exact HT)).
  rewrite E in Q. destruct Q as [r' [E' W]]. destruct r' as [out|]; [|destruct W]. destruct W as [Sr W]. exists out. split; [exact E'|]. split; [congruence|].
  intros x Hx. rewrite <- Ho by auto. refine (Rle_trans _ _ _ (W x ltac:(rewrite Sr, So; auto)) _). right.
  unfold shift_error, kernel_error, abs_rounding. rewrite !map_length, Rmult_1_l.
  assert (Z0 : fold_right Rplus 0 (map (fun _ : R => 0) (map IZR k)) = 0) by (clear; induction k as [|z k IH]; cbn; [reflexivity|rewrite IH; ring]). rewrite Z0, Rmult_0_r, Rplus_0_r.
  f_equal. unfold abs_sumC, of_num. cbn [shape get amap]. apply sumNR_ext. intros i _. destruct (get img i) as [v|]; [apply Cmod_R|apply (eq_trans (Cmod_R 0) eq_refl)].
Qed.
Print Assumptions C125_integer_shift_is_roll.

(** the error is at most four times that of a transform plus twice that of the kernel, in units of the sum of the moduli *)
Theorem C125_small :
  forall eps mu data offset phase d ret_abs,
  0 <= eps <= 1 / 16 -> 0 <= kernel_error eps mu offset phase d ->
  shift_error eps mu data offset phase d ret_abs true <= abs_sumC data * (4 * eps + 2 * kernel_error eps mu offset phase d).
Proof.
  intros eps mu data off ph d ra He HK. unfold shift_error, abs_rounding. rewrite Rmult_1_l. apply Rmult_le_compat_l.
  - unfold abs_sumC. apply P_rounding.l1_nonneg.
  - set (k := kernel_error eps mu off ph d) in *. assert (E2 : eps * eps <= eps / 16) by (assert (Q := Rmult_le_compat_l eps eps (1 / 16)); lra).
    assert (E3 : eps * eps * eps <= eps / 256) by (assert (Q := Rmult_le_compat_r eps (eps * eps) (eps / 16)); lra).
    set (c := 3 * eps + 3 * (eps * eps) + eps * eps * eps). assert (Hc : c <= 4 * eps) by (unfold c; lra). assert (Hc1 : c <= 1) by lra.
    replace ((1 + eps) ^ 3 * (1 + k) - 1) with (c + k + c * k) by (unfold c; ring). assert (Q := Rmult_le_compat_r k c 1 HK Hc1). lra.
Qed.
Print Assumptions C125_small.

Theorem C125_exact :
  (forall has_fftw data offset phase nthreads use_np ret_abs ret_real,
     shiftnd_fp (exact_arith has_fftw nthreads use_np) (exact_zarith has_fftw nthreads use_np) exact_sarith data offset phase ret_abs ret_real =
     shiftnd has_fftw data offset phase nthreads use_np ret_abs ret_real) /\
  (forall has_fftw data deltax deltay phase nthreads use_np ret_abs ret_real,
     shift2d_fp (exact_arith has_fftw nthreads use_np) (exact_zarith has_fftw nthreads use_np) exact_sarith data deltax deltay phase ret_abs ret_real =
     shift2d has_fftw data deltax deltay phase nthreads use_np ret_abs ret_real).
Proof. split; intros; [apply shiftnd_fp_exact|apply shift2d_fp_exact]. Qed.
Print Assumptions C125_exact.

(** a two-pixel image shifted by half a pixel: the hypotheses hold with exact operations *)
Example C125_nonvacuous : let img := mk1 2 (fun i => if (i =? 0)%Z then Fin 1 else Fin 3) in
  accurate 0 (shape (of_num img)) (exact_arith false 1 false) /\ accurate_exp 0 8 (exact_zarith false 1 false) /\ rounds (/ 100) exact_sarith /\
  within_each [/ 4] [/ 2] [/ 4] /\ largest_phase [/ 2] 0 * (1 + / 100) ^ (length [/ 2] + 7) <= 8.
Proof.
  cbv zeta. split; [|split; [|split; [|split]]].
  - apply C103_exact_transforms.
  - intros t _. cbn [exact_zarith za_cis]. replace (Cminus (cis t) (cis t)) with (RtoC 0) by ring. rewrite Cmod_0. lra.
  - split; [lra|]. intros x. cbn [exact_sarith sa_rd]. replace (x - x) with 0 by ring. rewrite Rabs_R0. apply Rmult_le_pos; [lra|apply Rabs_pos].
  - constructor; [|constructor]. rewrite Rabs_right; lra.
  - unfold largest_phase. cbn [map fold_right length Nat.add pow]. rewrite Rabs_R0, Rabs_right by lra. assert (PP := PI_4). lra.
Qed.
