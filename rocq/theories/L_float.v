(** Error bounds for M_float.v *)
From Coq Require Import ZArith Lia List Reals Lra Permutation.
From Coquelicot Require Import Complex.
From Flocq Require Import Core Relative.
From Verif Require Import Base NDim DFT Py M_rounding M_rounding2 M_float P_rounding.
Import ListNotations.
Open Scope R_scope.

Lemma u64_val : u64 = / 2 ^ 53.
Proof. unfold u64. change (-53 + 1)%Z with (- (52))%Z. rewrite bpow_opp. change (bpow radix2 52) with (IZR (2 ^ 52)). rewrite pow_IZR. rewrite <- Rinv_mult. f_equal. Qed.
Lemma u64_pos : 0 < u64.
Proof. rewrite u64_val. apply Rinv_0_lt_compat. apply pow_lt. lra. Qed.
Lemma rnd64_err x : Rabs (rnd64 x - x) <= u64 * Rabs x.
Proof. apply relative_error_N_FLX. lia. Qed.
Lemma up_ge1 n : 1 <= (1 + u64) ^ n.
Proof. assert (U := u64_pos). induction n as [|n IH]; [simpl; lra|]. cbn [pow]. apply Rle_trans with (1 * 1); [lra|]. apply Rmult_le_compat; lra. Qed.
Lemma up_mono n m : (n <= m)%nat -> (1 + u64) ^ n <= (1 + u64) ^ m.
Proof. intros H. apply Rle_pow; auto. assert (U := u64_pos). lra. Qed.

Definition lsum (l : list (R * R)) : R := fold_right (fun p s => fst p * snd p + s) 0 l.
Definition labs (l : list (R * R)) : R := fold_right (fun p s => Rabs (fst p * snd p) + s) 0 l.
Lemma lsum_perm l l' : Permutation l l' -> lsum l = lsum l'.
Proof. unfold lsum, labs. induction 1; cbn [fold_right]; lra. Qed.
Lemma labs_perm l l' : Permutation l l' -> labs l = labs l'.
Proof. unfold lsum, labs. induction 1; cbn [fold_right]; lra. Qed.
Lemma lsum_app l l' : lsum (l ++ l') = lsum l + lsum l'.
Proof. unfold lsum in *. induction l; cbn [fold_right app]; [lra|]. rewrite IHl. lra. Qed.
Lemma labs_app l l' : labs (l ++ l') = labs l + labs l'.
Proof. unfold labs in *. induction l; cbn [fold_right app]; [lra|]. rewrite IHl. lra. Qed.
Lemma labs_nonneg l : 0 <= labs l.
Proof. induction l as [|p l IH]; cbn; [lra|]. assert (Q := Rabs_pos (fst p * snd p)). unfold labs in IH. lra. Qed.
Lemma lsum_le l : Rabs (lsum l) <= labs l.
Proof. induction l as [|p l IH]; cbn; [rewrite Rabs_R0; lra|]. refine (Rle_trans _ _ _ (Rabs_triang _ _) _). unfold lsum, labs in IH. lra. Qed.

Lemma fl_dot_length l s : fl_dot l s -> (1 <= length l)%nat.
Proof.
  induction 1 as [| |l l1 l2 s1 s2 P _ I1 _ I2|l l1 x y s P _ I1]; cbn; try lia.
  - rewrite (Permutation_length P), app_length. lia.
  - rewrite (Permutation_length P). cbn. lia.
Qed.
Lemma fl_dot_err l s : fl_dot l s -> Rabs (s - lsum l) <= ((1 + u64) ^ length l - 1) * labs l.
Proof.
  assert (U := u64_pos).
  induction 1 as [x y|x y Hx|l l1 l2 s1 s2 P D1 I1 D2 I2|l l1 x y s P D1 I1].
  - cbn. assert (Q := rnd64_err (x * y)). replace (rnd64 (x * y) - (x * y + 0)) with (rnd64 (x * y) - x * y) by ring. lra.
  - cbn. replace (x * y - (x * y + 0)) with 0 by ring. rewrite Rabs_R0. apply Rmult_le_pos; [lra|]. assert (Q := Rabs_pos (x * y)). lra.
  - rewrite (lsum_perm _ _ P), (labs_perm _ _ P), (Permutation_length P), lsum_app, labs_app, app_length.
    assert (L1 := fl_dot_length _ _ D1). assert (L2 := fl_dot_length _ _ D2).
    set (n := (length l1 + length l2 - 1)%nat). replace (length l1 + length l2)%nat with (S n) by lia. cbn [pow].
    assert (A1 := labs_nonneg l1). assert (A2 := labs_nonneg l2). assert (S1 := lsum_le l1). assert (S2 := lsum_le l2).
    assert (M1 : (1 + u64) ^ length l1 <= (1 + u64) ^ n) by (apply up_mono; lia).
    assert (M2 : (1 + u64) ^ length l2 <= (1 + u64) ^ n) by (apply up_mono; lia).
    assert (E1 : Rabs (s1 - lsum l1) <= ((1 + u64) ^ n - 1) * labs l1) by (refine (Rle_trans _ _ _ I1 _); apply Rmult_le_compat_r; lra).
    assert (E2 : Rabs (s2 - lsum l2) <= ((1 + u64) ^ n - 1) * labs l2) by (refine (Rle_trans _ _ _ I2 _); apply Rmult_le_compat_r; lra).
    assert (Q := rnd64_err (s1 + s2)). set (Pn := (1 + u64) ^ n) in *.
    assert (T : Rabs (s1 + s2) <= Pn * (labs l1 + labs l2)).
    { replace (s1 + s2) with ((s1 - lsum l1) + (s2 - lsum l2) + (lsum l1 + lsum l2)) by ring.
      refine (Rle_trans _ _ _ (Rabs_triang _ _) _). assert (T1 := Rabs_triang (s1 - lsum l1) (s2 - lsum l2)). assert (T2 := Rabs_triang (lsum l1) (lsum l2)). lra. }
    assert (T' := Rmult_le_compat_l u64 _ _ (Rlt_le _ _ U) T).
    replace (rnd64 (s1 + s2) - (lsum l1 + lsum l2)) with ((rnd64 (s1 + s2) - (s1 + s2)) + ((s1 - lsum l1) + (s2 - lsum l2))) by ring.
    refine (Rle_trans _ _ _ (Rabs_triang _ _) _). assert (T1 := Rabs_triang (s1 - lsum l1) (s2 - lsum l2)). lra.
  - rewrite (lsum_perm _ _ P), (labs_perm _ _ P), (Permutation_length P). cbn [lsum labs fold_right fst snd length pow]. fold (lsum l1) (labs l1).
    assert (A1 := labs_nonneg l1). assert (S1 := lsum_le l1). assert (G := up_ge1 (length l1)). set (Pn := (1 + u64) ^ length l1) in *.
    assert (Q := rnd64_err (x * y + s)). assert (X := Rabs_pos (x * y)).
    assert (T : Rabs (x * y + s) <= Rabs (x * y) + Pn * labs l1).
    { refine (Rle_trans _ _ _ (Rabs_triang _ _) _). replace s with ((s - lsum l1) + lsum l1) at 1 by ring. assert (T2 := Rabs_triang (s - lsum l1) (lsum l1)). lra. }
    assert (T' := Rmult_le_compat_l u64 _ _ (Rlt_le _ _ U) T).
    replace (rnd64 (x * y + s) - (x * y + lsum l1)) with ((rnd64 (x * y + s) - (x * y + s)) + (s - lsum l1)) by ring.
    refine (Rle_trans _ _ _ (Rabs_triang _ _) _).
    assert (K : u64 * Rabs (x * y) <= ((1 + u64) * Pn - 1) * Rabs (x * y)).
    { apply Rmult_le_compat_r; auto. assert (u64 * 1 <= u64 * Pn) by (apply Rmult_le_compat_l; lra). lra. }
    lra.
Qed.

Definition csum (l : list (C * C)) : C := fold_right (fun p s => Cplus (Cmult (fst p) (snd p)) s) (RtoC 0) l.
Definition cabs (l : list (C * C)) : R := fold_right (fun p s => Cmod (fst p) * Cmod (snd p) + s) 0 l.
Lemma cabs_nonneg l : 0 <= cabs l.
Proof. induction l as [|p l IH]; cbn; [lra|]. assert (Q := Rmult_le_pos _ _ (Cmod_ge_0 (fst p)) (Cmod_ge_0 (snd p))). unfold cabs in IH. lra. Qed.
Lemma re_pairs_ok l : lsum (re_pairs l) = Re (csum l) /\ labs (re_pairs l) <= cabs l /\ length (re_pairs l) = (2 * length l)%nat.
Proof.
  induction l as [|[z w] l [I1 [I2 I3]]]; [cbn; repeat split; lra|]. cbn [re_pairs flat_map app csum cabs fold_right fst snd].
  change (flat_map _ l) with (re_pairs l). fold (csum l) (cabs l). cbn [lsum labs fold_right fst snd length]. fold (lsum (re_pairs l)) (labs (re_pairs l)).
  rewrite I1, I3. split; [|split; [|lia]].
  - destruct z, w, (csum l). cbn. ring.
  - assert (Q : Rabs (Re z * Re w) + Rabs (- Im z * Im w) <= Cmod z * Cmod w); [|lra].
    rewrite !Rabs_mult, Rabs_Ropp.
    assert (M1 : Cmod z = Cmod (Rabs (Re z), - Rabs (Im z))) by (unfold Cmod; cbn [fst snd]; f_equal; unfold Re, Im; cbn [pow]; unfold Rabs; destruct (Rcase_abs _), (Rcase_abs _); ring).
    assert (M2 : Cmod w = Cmod (Rabs (Re w), Rabs (Im w))) by (unfold Cmod; cbn [fst snd]; f_equal; unfold Re, Im; cbn [pow]; unfold Rabs; destruct (Rcase_abs _), (Rcase_abs _); ring).
    rewrite M1, M2, <- Cmod_mult. refine (Rle_trans _ _ _ _ (re_le_Cmod _)). cbn. refine (Rle_trans _ _ _ _ (Rle_abs _)). right. unfold Re, Im. ring.
Qed.
Lemma im_pairs_ok l : lsum (im_pairs l) = Im (csum l) /\ labs (im_pairs l) <= cabs l /\ length (im_pairs l) = (2 * length l)%nat.
Proof.
  induction l as [|[z w] l [I1 [I2 I3]]]; [cbn; repeat split; lra|]. cbn [im_pairs flat_map app csum cabs fold_right fst snd].
  change (flat_map _ l) with (im_pairs l). fold (csum l) (cabs l). cbn [lsum labs fold_right fst snd length]. fold (lsum (im_pairs l)) (labs (im_pairs l)).
  rewrite I1, I3. split; [|split; [|lia]].
  - destruct z, w, (csum l). cbn. ring.
  - assert (Q : Rabs (Re z * Im w) + Rabs (Im z * Re w) <= Cmod z * Cmod w); [|lra].
    rewrite !Rabs_mult.
    assert (M1 : Cmod z = Cmod (Rabs (Re z), - Rabs (Im z))) by (unfold Cmod; cbn [fst snd]; f_equal; unfold Re, Im; cbn [pow]; unfold Rabs; destruct (Rcase_abs _), (Rcase_abs _); ring).
    assert (M2 : Cmod w = Cmod (Rabs (Im w), Rabs (Re w))) by (unfold Cmod; cbn [fst snd]; f_equal; unfold Re, Im; cbn [pow]; unfold Rabs; destruct (Rcase_abs _), (Rcase_abs _); ring).
    rewrite M1, M2, <- Cmod_mult. refine (Rle_trans _ _ _ _ (re_le_Cmod _)). cbn. refine (Rle_trans _ _ _ _ (Rle_abs _)). right. unfold Re, Im. ring.
Qed.
Lemma Cmod_parts z : Cmod z <= Rabs (Re z) + Rabs (Im z).
Proof.
  replace z with (Cplus (RtoC (Re z)) (Cmult Ci (RtoC (Im z)))) at 1 by (destruct z; unfold Cplus, Cmult, Ci, RtoC; cbn; f_equal; ring).
  refine (Rle_trans _ _ _ (Cmod_triangle _ _) _). rewrite Cmod_mult, !Cmod_R. replace (Cmod Ci) with 1; [lra|]. unfold Cmod, Ci. cbn. replace (0 * (0 * 1) + 1 * (1 * 1)) with 1 by ring. rewrite sqrt_1. reflexivity.
Qed.
Lemma fl_cdot_err l z : fl_cdot l z -> Cmod (Cminus z (csum l)) <= ((1 + u64) ^ (4 * length l) - 1) * cabs l.
Proof.
  intros [H1 H2]. apply fl_dot_err in H1. apply fl_dot_err in H2.
  destruct (re_pairs_ok l) as [R1 [R2 R3]]. destruct (im_pairs_ok l) as [J1 [J2 J3]]. rewrite R1, R3 in H1. rewrite J1, J3 in H2.
  refine (Rle_trans _ _ _ (Cmod_parts _) _).
  replace (4 * length l)%nat with (2 * length l + 2 * length l)%nat by lia. rewrite pow_add. assert (G := up_ge1 (2 * length l)).
  set (X := (1 + u64) ^ (2 * length l)) in *. assert (A0 := cabs_nonneg l).
  assert (K1 := Rmult_le_compat_l (X - 1) _ _ ltac:(lra) R2). assert (K2 := Rmult_le_compat_l (X - 1) _ _ ltac:(lra) J2).
  change (Re (Cminus z (csum l))) with (Re z - Re (csum l)). change (Im (Cminus z (csum l))) with (Im z - Im (csum l)).
  assert (K3 : 2 * (X - 1) * cabs l <= (X * X - 1) * cabs l).
  { apply Rmult_le_compat_r; auto. assert (Q := pow2_ge_0 (X - 1)). cbn [pow] in Q. lra. }
  lra.
Qed.

Lemma zrange_fold {A} (f : Z -> A -> A) a n : fold_right f a (zrange n) = fold_right (fun i => f (Z.of_nat i)) a (seq 0 (Z.to_nat n)).
Proof. unfold zrange. induction (seq 0 (Z.to_nat n)); cbn; congruence. Qed.
Lemma zrange_S n : (0 <= n)%Z -> zrange (n + 1) = zrange n ++ [n].
Proof. intros. unfold zrange. replace (Z.to_nat (n + 1)) with (S (Z.to_nat n)) by lia. rewrite seq_S, map_app. cbn. rewrite Z2Nat.id by lia. reflexivity. Qed.
Lemma zrange_length n : length (zrange n) = Z.to_nat n.
Proof. unfold zrange. rewrite map_length, seq_length. reflexivity. Qed.
Lemma csum_app l l' : csum (l ++ l') = Cplus (csum l) (csum l').
Proof. unfold csum in *. induction l; cbn [fold_right app]; [ring|]. rewrite IHl. ring. Qed.
Lemma cabs_app l l' : cabs (l ++ l') = cabs l + cabs l'.
Proof. unfold cabs in *. induction l; cbn [fold_right app]; [ring|]. rewrite IHl. ring. Qed.
Lemma csum_range n a b : csum (map (fun k => (a k, b k)) (zrange n)) = sumC n (fun k => Cmult (a k) (b k)).
Proof.
  revert n. apply (sumG_ind (fun n => csum (map (fun k => (a k, b k)) (zrange n)) = sumC n (fun k => Cmult (a k) (b k)))).
  - intros n Hn. rewrite sumC_0 by auto. unfold zrange. replace (Z.to_nat n) with 0%nat by lia. reflexivity.
  - intros n Hn IH. rewrite zrange_S, map_app, csum_app, IH, sumC_S by auto. cbn. ring.
Qed.
Lemma cabs_range n a b : cabs (map (fun k => (a k, b k)) (zrange n)) = sumR n (fun k => Cmod (a k) * Cmod (b k)).
Proof.
  revert n. apply (sumG_ind (fun n => cabs (map (fun k => (a k, b k)) (zrange n)) = sumR n (fun k => Cmod (a k) * Cmod (b k)))).
  - intros n Hn. rewrite sumR_0 by auto. unfold zrange. replace (Z.to_nat n) with 0%nat by lia. reflexivity.
  - intros n Hn IH. rewrite zrange_S, map_app, cabs_app, IH, sumR_S by auto. cbn. ring.
Qed.
Lemma fl_cdot_range n a b z : fl_cdot (map (fun k => (a k, b k)) (zrange n)) z ->
  Cmod (Cminus z (sumC n (fun k => Cmult (a k) (b k)))) <= ((1 + u64) ^ (4 * Z.to_nat n) - 1) * sumR n (fun k => Cmod (a k) * Cmod (b k)).
Proof. intros H. apply fl_cdot_err in H. rewrite csum_range, cabs_range, map_length, zrange_length in H. exact H. Qed.

(** ** the transforms *)
Lemma cdot_near p (W w Y y : Z -> C) (L : Z -> R) h q z : (0 <= p)%Z -> 1 <= h ->
  (forall r, (0 <= r < p)%Z -> Cmod (Cminus (W r) (w r)) <= (1 + u64) ^ q - 1 /\ Cmod (w r) <= 1 /\ Cmod (Cminus (Y r) (y r)) <= (h - 1) * L r /\ Cmod (y r) <= L r) ->
  fl_cdot (map (fun r => (W r, Y r)) (zrange p)) z ->
  Cmod (Cminus z (sumC p (fun r => Cmult (w r) (y r)))) <= ((1 + u64) ^ (4 * Z.to_nat p + q) * h - 1) * sumR p L.
Proof.
  intros Hp Hh H E. apply fl_cdot_range in E. rewrite pow_add. assert (G1 := up_ge1 (4 * Z.to_nat p)). assert (G2 := up_ge1 q).
  set (c := (1 + u64) ^ (4 * Z.to_nat p)) in *. set (g := (1 + u64) ^ q) in *.
  assert (A1 : sumR p (fun k => Cmod (W k) * Cmod (Y k)) <= g * h * sumR p L).
  { rewrite <- sumR_scal. apply sumR_le. intros r Hr. destruct (H r Hr) as [H1 [H2 [H3 H4]]]. assert (L0 := Rle_trans _ _ _ (Cmod_ge_0 (y r)) H4).
    assert (B1 := Cmod_near _ _ _ _ H1 H2). assert (B2 := Cmod_near _ _ _ _ H3 H4). replace (g * h * L r) with (g * (h * L r)) by ring. apply Rmult_le_compat; auto using Cmod_ge_0; lra. }
  assert (A2 : Cmod (Cminus (sumC p (fun r => Cmult (W r) (Y r))) (sumC p (fun r => Cmult (w r) (y r)))) <= (g * h - 1) * sumR p L).
  { rewrite <- sumC_minus. refine (Rle_trans _ _ _ (Cmod_sumC _ _) _). rewrite <- sumR_scal. apply sumR_le. intros r Hr. destruct (H r Hr) as [H1 [H2 [H3 H4]]].
    assert (L0 := Rle_trans _ _ _ (Cmod_ge_0 (y r)) H4). assert (B2 := Cmod_near _ _ _ _ H3 H4).
    replace (Cminus (Cmult (W r) (Y r)) (Cmult (w r) (y r))) with (Cplus (Cmult (Cminus (W r) (w r)) (Y r)) (Cmult (w r) (Cminus (Y r) (y r)))) by ring.
    refine (Rle_trans _ _ _ (Cmod_triangle _ _) _). rewrite !Cmod_mult.
    assert (Q1 : Cmod (Cminus (W r) (w r)) * Cmod (Y r) <= (g - 1) * (h * L r)) by (apply Rmult_le_compat; auto using Cmod_ge_0; lra).
    assert (Q2 : Cmod (w r) * Cmod (Cminus (Y r) (y r)) <= 1 * ((h - 1) * L r)) by (apply Rmult_le_compat; auto using Cmod_ge_0).
    lra. }
  assert (A3 := Rmult_le_compat_l (c - 1) _ _ ltac:(lra) A1).
  replace (Cminus z (sumC p (fun r => Cmult (w r) (y r)))) with
    (Cplus (Cminus z (sumC p (fun r => Cmult (W r) (Y r)))) (Cminus (sumC p (fun r => Cmult (W r) (Y r))) (sumC p (fun r => Cmult (w r) (y r))))) by ring.
  refine (Rle_trans _ _ _ (Cmod_triangle _ _) _). lra.
Qed.

Lemma sumC_blocks m f g : (0 <= m)%Z -> (0 <= f)%Z -> sumC (m * f) g = sumC m (fun a => sumC f (fun i => g (i + f * a)%Z)).
Proof.
  intros Hm Hf. revert m Hm. apply (sumG_ind (fun m => (0 <= m)%Z -> sumC (m * f) g = sumC m (fun a => sumC f (fun i => g (i + f * a)%Z)))).
  - intros m H1 H2. replace m with 0%Z by lia. rewrite !sumC_0 by lia. reflexivity.
  - intros m H1 IH _. rewrite sumC_S by lia. rewrite <- IH by lia. replace ((m + 1) * f)%Z with (m * f + f)%Z by ring.
    unfold sumC. rewrite sumG_split; try (intros; ring); try nia. f_equal. apply sumG_ext. intros i Hi. f_equal. ring.
Qed.
Lemma sumR_blocks m f g : (0 <= m)%Z -> (0 <= f)%Z -> sumR (m * f) g = sumR m (fun a => sumR f (fun i => g (i + f * a)%Z)).
Proof.
  intros Hm Hf. revert m Hm. apply (sumG_ind (fun m => (0 <= m)%Z -> sumR (m * f) g = sumR m (fun a => sumR f (fun i => g (i + f * a)%Z)))).
  - intros m H1 H2. replace m with 0%Z by lia. rewrite !sumR_0 by lia. reflexivity.
  - intros m H1 IH _. rewrite sumR_S by lia. rewrite <- IH by lia. replace ((m + 1) * f)%Z with (m * f + f)%Z by ring.
    unfold sumR. rewrite sumG_split; try (intros; ring); try nia. f_equal. apply sumG_ext. intros i Hi. f_equal. ring.
Qed.

(** the exact transform of n values in direction sg *)
Definition dft1 (sg : R) (n : Z) (x : Z -> C) (k : Z) : C := sumC n (fun m => Cmult (x m) (cis (sg * (2 * PI * (IZR k * IZR m / IZR n))))).
Lemma dft1_le sg n x k : Cmod (dft1 sg n x k) <= sumR n (fun m => Cmod (x m)).
Proof. unfold dft1. refine (Rle_trans _ _ _ (Cmod_sumC _ _) _). right. apply sumR_ext. intros m _. rewrite Cmod_mult, Cmod_cis. ring. Qed.

(** Cooley-Tukey *)
Lemma dft1_step sg p M x k : sg = 1 \/ sg = -1 -> (0 < p)%Z -> (0 < M)%Z ->
  dft1 sg (p * M) x k = sumC p (fun r => Cmult (cis (sg * (2 * PI * (IZR k * IZR r / IZR (p * M))))) (dft1 sg M (fun m => x (r + p * m)%Z) (k mod M)%Z)).
Proof.
  intros Hs Hp HM. unfold dft1. rewrite (Z.mul_comm p M) at 1. rewrite sumC_blocks by lia. rewrite sumC_swap. apply sumC_ext. intros r Hr. rewrite <- sumC_scal.
  apply sumC_ext. intros m Hm.
  assert (E : cis (sg * (2 * PI * (IZR k * IZR (r + p * m) / IZR (p * M)))) =
    Cmult (cis (sg * (2 * PI * (IZR k * IZR r / IZR (p * M))))) (cis (sg * (2 * PI * (IZR (k mod M) * IZR m / IZR M))))).
  { assert (P1 : IZR p <> 0) by (apply IZR_neq; lia). assert (P2 : IZR M <> 0) by (apply IZR_neq; lia).
    assert (KD := Z.div_mod k M ltac:(lia)). set (qd := (k / M)%Z) in *. set (rm := (k mod M)%Z) in *. rewrite <- cis_plus.
    destruct Hs as [-> | ->].
    - apply (cis_congr _ _ (qd * m)). rewrite KD, !plus_IZR, !mult_IZR. field. auto.
    - apply (cis_congr _ _ (- (qd * m))). rewrite KD, opp_IZR, !plus_IZR, !mult_IZR. field. auto. }
  rewrite E. ring.
Qed.

Lemma fft1_err q sg ps : sg = 1 \/ sg = -1 -> pos_shape ps -> forall x X, fft1 q sg ps x X -> forall k, (0 <= k < prodZ ps)%Z ->
  Cmod (Cminus (X k) (dft1 sg (prodZ ps) x k)) <= ((1 + u64) ^ roundings1 q ps - 1) * sumR (prodZ ps) (fun m => Cmod (x m)).
Proof.
  intros Hs. induction ps as [|p qs IH]; intros Hp x X H k Hk.
  - cbn [prodZ] in *. cbn [fft1 roundings1 fold_right pow] in *. rewrite H by auto. replace k with 0%Z by lia. unfold dft1.
    change 1%Z with (0 + 1)%Z. rewrite !sumC_S, !sumC_0 by lia. replace (sg * (2 * PI * (IZR 0 * IZR 0 / IZR (0 + 1)))) with 0 by (unfold Rdiv; ring). rewrite cis_0.
    match goal with |- Cmod ?z <= _ => replace z with (RtoC 0) by ring end. rewrite Cmod_0. lra.
  - apply pos_shape_cons in Hp. destruct Hp as [Pp Pq]. assert (PM := prodZ_pos qs Pq). cbn [prodZ] in *. set (M := prodZ qs) in *.
    destruct H as [Y [H1 H2]]. destruct (H2 k Hk) as [W [H3 H4]].
    rewrite dft1_step by auto. cbn [roundings1 fold_right]. fold (roundings1 q qs). rewrite pow_add.
    assert (SB : sumR (p * M) (fun m => Cmod (x m)) = sumR p (fun r => sumR M (fun a => Cmod (x (r + p * a)%Z)))).
    { rewrite (Z.mul_comm p M), (sumR_blocks M p) by lia. apply sumR_swap. }
    rewrite SB.
    apply (cdot_near p W _ (fun r => Y r (k mod M)%Z) _ (fun r => sumR M (fun a => Cmod (x (r + p * a)%Z))) ((1 + u64) ^ roundings1 q qs) q (X k)); try lia; auto using up_ge1.
    intros r Hr. split; [apply H3; auto|]. split; [rewrite Cmod_cis; lra|]. split; [|apply (dft1_le sg M (fun m => x (r + p * m)%Z))].
    apply (IH Pq (fun m => x (r + p * m)%Z) (Y r) (H1 r Hr)). apply Z.mod_pos_bound. auto.
Qed.

(** the exact N-dimensional transform in direction sg *)
Definition dftN (sg : R) (sh : list Z) (a : list Z -> C) (k : list Z) : C := sumNC sh (fun y => Cmult (a y) (cis (sg * (2 * PI * phZ sh k y)))).
Lemma dftN_le sg sh a k : Cmod (dftN sg sh a k) <= l1 sh a.
Proof. unfold dftN. refine (Rle_trans _ _ _ (Cmod_sumNC _ _) _). right. apply sumNR_ext. intros m _. rewrite Cmod_mult, Cmod_cis. ring. Qed.
Lemma dftN_step sg n sh a k ks : dftN sg (n :: sh) a (k :: ks) = dft1 sg n (fun i => dftN sg sh (fun l => a (i :: l)) ks) k.
Proof.
  unfold dftN, dft1. rewrite sumNC_cons. apply sumC_ext. intros i Hi. rewrite Cmult_comm, <- sumNC_scal. apply sumNC_ext. intros l Hl. cbn [phZ].
  replace (sg * (2 * PI * (IZR k * IZR i / IZR n + phZ sh ks l))) with (sg * (2 * PI * (IZR k * IZR i / IZR n)) + sg * (2 * PI * phZ sh ks l)) by ring. rewrite cis_plus. ring.
Qed.
Lemma dft1_minus sg n x y k : dft1 sg n (fun m => Cminus (x m) (y m)) k = Cminus (dft1 sg n x k) (dft1 sg n y k).
Proof. unfold dft1. rewrite <- sumC_minus. apply sumC_ext. intros; ring. Qed.

Lemma fftN_err q sg pss : sg = 1 \/ sg = -1 -> Forall pos_shape pss -> forall a A, fftN q sg pss a A -> forall k, inb (map prodZ pss) k ->
  Cmod (Cminus (A k) (dftN sg (map prodZ pss) a k)) <= ((1 + u64) ^ roundingsN q pss - 1) * l1 (map prodZ pss) a.
Proof.
  intros Hs. induction pss as [|ps pss IH]; intros Hp a A H k Hk.
  - destruct k; [|destruct Hk]. cbn [fftN map] in *. rewrite H. unfold dftN, l1. rewrite sumNC_nil, sumNR_nil. cbn [phZ roundingsN fold_right pow].
    replace (sg * (2 * PI * 0)) with 0 by ring. rewrite cis_0. match goal with |- Cmod ?z <= _ => replace z with (RtoC 0) by ring end. rewrite Cmod_0. lra.
  - inversion Hp as [|? ? P1 P2]; subst. destruct k as [|k ks]; [destruct Hk|]. destruct Hk as [Hk Hks]. destruct H as [Y [H1 H2]].
    cbn [map]. set (sh := map prodZ pss) in *. set (n := prodZ ps) in *. rewrite dftN_step. cbn [roundingsN fold_right]. fold (roundingsN q pss). rewrite pow_add.
    assert (G1 := up_ge1 (roundings1 q ps)). assert (G2 := up_ge1 (roundingsN q pss)).
    assert (E1 := fft1_err q sg ps Hs P1 _ _ (H2 ks Hks) k Hk). cbv beta in E1. fold n in E1.
    set (g1 := (1 + u64) ^ roundings1 q ps) in *. set (g2 := (1 + u64) ^ roundingsN q pss) in *.
    assert (D : forall i, (0 <= i < n)%Z -> Cmod (Cminus (Y i ks) (dftN sg sh (fun l => a (i :: l)) ks)) <= (g2 - 1) * l1 sh (fun l => a (i :: l))).
    { intros i Hi. apply (IH P2 (fun l => a (i :: l)) (Y i) (H1 i Hi)). exact Hks. }
    assert (L : l1 (n :: sh) a = sumR n (fun i => l1 sh (fun l => a (i :: l)))) by (unfold l1; rewrite sumNR_cons; reflexivity). rewrite L.
    assert (B1 : sumR n (fun i => Cmod (Y i ks)) <= g2 * sumR n (fun i => l1 sh (fun l => a (i :: l)))).
    { rewrite <- sumR_scal. apply sumR_le. intros i Hi. assert (Q := Cmod_near _ _ _ _ (D i Hi) (dftN_le sg sh (fun l => a (i :: l)) ks)). lra. }
    assert (B2 : Cmod (Cminus (dft1 sg n (fun i => Y i ks) k) (dft1 sg n (fun i => dftN sg sh (fun l => a (i :: l)) ks) k)) <= (g2 - 1) * sumR n (fun i => l1 sh (fun l => a (i :: l)))).
    { rewrite <- dft1_minus. refine (Rle_trans _ _ _ (dft1_le _ _ _ _) _). rewrite <- sumR_scal. apply sumR_le. intros i Hi. apply D; auto. }
    assert (B3 := Rmult_le_compat_l (g1 - 1) _ _ ltac:(lra) B1).
    match goal with |- Cmod (Cminus ?X ?Z) <= _ => replace (Cminus X Z) with (Cplus (Cminus X (dft1 sg n (fun i => Y i ks) k)) (Cminus (dft1 sg n (fun i => Y i ks) k) Z)) by ring end.
    refine (Rle_trans _ _ _ (Cmod_triangle _ _) _). lra.
Qed.

Lemma scaled_err n z z' : (0 < n)%Z -> scaled n z z' -> Cmod (Cminus z' (Cmult (RtoC (/ IZR n)) z)) <= ((1 + u64) ^ 2 - 1) * (Cmod z / IZR n).
Proof.
  intros Hn [H1 H2]. assert (U := u64_pos). assert (PN : 0 < / IZR n) by (apply Rinv_0_lt_compat, IZR_lt; auto).
  assert (K : forall x, Rabs (rnd64 (rnd64 (/ IZR n) * x) - / IZR n * x) <= ((1 + u64) ^ 2 - 1) * (/ IZR n * Rabs x)).
  { intros x. assert (E1 := rnd64_err (/ IZR n)). rewrite (Rabs_right (/ IZR n)) in E1 by lra. assert (E2 := rnd64_err (rnd64 (/ IZR n) * x)).
    set (c := rnd64 (/ IZR n)) in *.
    assert (E3 : Rabs (c * x - / IZR n * x) <= u64 * / IZR n * Rabs x).
    { replace (c * x - / IZR n * x) with ((c - / IZR n) * x) by ring. rewrite Rabs_mult. apply Rmult_le_compat_r; auto using Rabs_pos. }
    assert (E4 : Rabs (c * x) <= (1 + u64) * / IZR n * Rabs x).
    { replace (c * x) with ((c * x - / IZR n * x) + / IZR n * x) by ring. refine (Rle_trans _ _ _ (Rabs_triang _ _) _). rewrite (Rabs_mult (/ IZR n)), (Rabs_right (/ IZR n)) by lra. lra. }
    assert (E5 := Rmult_le_compat_l u64 _ _ (Rlt_le _ _ U) E4).
    replace (rnd64 (c * x) - / IZR n * x) with ((rnd64 (c * x) - c * x) + (c * x - / IZR n * x)) by ring. refine (Rle_trans _ _ _ (Rabs_triang _ _) _). cbn [pow]. lra. }
  set (d := (1 + u64) ^ 2 - 1) in *. assert (D0 : 0 <= d) by (assert (Q := up_ge1 2); unfold d; lra).
  assert (M : Cmod (Cminus z' (Cmult (RtoC (/ IZR n)) z)) <= Cmod (Cmult (RtoC (d * / IZR n)) (Rabs (Re z), Rabs (Im z)))).
  { unfold Cmod at 1 2. apply sqrt_le_1_alt. destruct z as [a b], z' as [a' b']. cbn in H1, H2. subst a' b'. cbn [fst snd Cminus Cplus Copp Cmult RtoC Re Im].
    assert (K1 := K a). assert (K2 := K b).
    replace (rnd64 (rnd64 (/ IZR n) * a) + - (/ IZR n * a - 0 * b)) with (rnd64 (rnd64 (/ IZR n) * a) - / IZR n * a) by ring.
    replace (rnd64 (rnd64 (/ IZR n) * b) + - (/ IZR n * b + 0 * a)) with (rnd64 (rnd64 (/ IZR n) * b) - / IZR n * b) by ring.
    replace (d * / IZR n * Rabs a - 0 * Rabs b) with (d * (/ IZR n * Rabs a)) by ring.
    replace (d * / IZR n * Rabs b + 0 * Rabs a) with (d * (/ IZR n * Rabs b)) by ring.
    apply Rplus_le_compat; rewrite <- (pow2_abs (rnd64 _ - _)); apply pow_incr; split; auto using Rabs_pos. }
  refine (Rle_trans _ _ _ M _). rewrite Cmod_mult, Cmod_R, Rabs_right by (apply Rle_ge, Rmult_le_pos; lra).
  replace (Cmod (Rabs (Re z), Rabs (Im z))) with (Cmod z) by (unfold Cmod; cbn [fst snd]; rewrite !pow2_abs; reflexivity). unfold Rdiv. right. ring.
Qed.
