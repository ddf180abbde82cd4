(** Foundations: finite sums over [0 .. n-1] indexed by [Z], and [cis t = exp(i t)].
    No code of the repository is modelled in this file. *)
From Coq Require Import ZArith Lia List Reals Lra Bool.
From Coquelicot Require Import Complex.
Import ListNotations.
Open Scope Z_scope.

(** ** Generic sums over a commutative monoid *)
Section GenSum.
  Context {A : Type} (zero : A) (add : A -> A -> A).

  Fixpoint sum_nat (n : nat) (f : Z -> A) : A :=
    match n with
    | O => zero
    | S m => add (sum_nat m f) (f (Z.of_nat m))
    end.

  Definition sumG (n : Z) (f : Z -> A) : A := sum_nat (Z.to_nat n) f.

  Hypothesis add_comm : forall x y, add x y = add y x.
  Hypothesis add_assoc : forall x y z, add x (add y z) = add (add x y) z.
  Hypothesis add_0_r : forall x, add x zero = x.

  Lemma sumG_0 n f : n <= 0 -> sumG n f = zero.
  Proof. intros H. unfold sumG. replace (Z.to_nat n) with O by lia. reflexivity. Qed.

  Lemma sumG_S n f : 0 <= n -> sumG (n + 1) f = add (sumG n f) (f n).
  Proof.
    intros H. unfold sumG. replace (Z.to_nat (n + 1)) with (S (Z.to_nat n)) by lia.
    simpl. rewrite Z2Nat.id by lia. reflexivity.
  Qed.

  Lemma sumG_ind (P : Z -> Prop) :
    (forall n, n <= 0 -> P n) -> (forall n, 0 <= n -> P n -> P (n + 1)) -> forall n, P n.
  Proof.
    intros H0 HS n. destruct (Z_le_gt_dec n 0) as [Hn|Hn]; [apply H0; lia|].
    assert (Hk : forall k : nat, P (Z.of_nat k)).
    { induction k as [|k IH]; [apply H0; lia|].
      replace (Z.of_nat (S k)) with (Z.of_nat k + 1) by lia. apply HS; [lia|exact IH]. }
    replace n with (Z.of_nat (Z.to_nat n)) by lia. apply Hk.
  Qed.

  Lemma sumG_ext n f g : (forall i, 0 <= i < n -> f i = g i) -> sumG n f = sumG n g.
  Proof.
    revert n. apply (sumG_ind (fun n => (forall i, 0 <= i < n -> f i = g i) -> sumG n f = sumG n g)).
    - intros n Hn _. rewrite !sumG_0 by lia. reflexivity.
    - intros n Hn IH H. rewrite !sumG_S by lia. rewrite IH by (intros; apply H; lia).
      rewrite (H n) by lia. reflexivity.
  Qed.

  Lemma sumG_const0 n f : (forall i, 0 <= i < n -> f i = zero) -> sumG n f = zero.
  Proof.
    revert n. apply (sumG_ind (fun n => (forall i, 0 <= i < n -> f i = zero) -> sumG n f = zero)).
    - intros n Hn _. apply sumG_0; lia.
    - intros n Hn IH H. rewrite sumG_S by lia. rewrite IH by (intros; apply H; lia).
      rewrite (H n) by lia. apply add_0_r.
  Qed.

  Lemma sumG_add n f g : sumG n (fun i => add (f i) (g i)) = add (sumG n f) (sumG n g).
  Proof.
    revert n. apply (sumG_ind (fun n => sumG n (fun i => add (f i) (g i)) = add (sumG n f) (sumG n g))).
    - intros n Hn. rewrite !sumG_0 by lia. symmetry; apply add_0_r.
    - intros n Hn IH. rewrite !sumG_S by lia. rewrite IH.
      rewrite <- !add_assoc. f_equal. rewrite !add_assoc. f_equal. apply add_comm.
  Qed.

  Lemma sumG_swap n m f :
    sumG n (fun i => sumG m (fun j => f i j)) = sumG m (fun j => sumG n (fun i => f i j)).
  Proof.
    revert n. apply (sumG_ind (fun n => sumG n (fun i => sumG m (fun j => f i j)) = sumG m (fun j => sumG n (fun i => f i j)))).
    - intros n Hn. rewrite sumG_0 by lia. symmetry. apply sumG_const0. intros; apply sumG_0; lia.
    - intros n Hn IH. rewrite sumG_S by lia. rewrite IH. rewrite <- sumG_add.
      apply sumG_ext. intros j Hj. rewrite sumG_S by lia. reflexivity.
  Qed.

  Lemma sumG_split n m f : 0 <= n -> 0 <= m ->
    sumG (n + m) f = add (sumG n f) (sumG m (fun i => f (n + i))).
  Proof.
    intros Hn. revert m.
    apply (sumG_ind (fun m => 0 <= m -> sumG (n + m) f = add (sumG n f) (sumG m (fun i => f (n + i))))).
    - intros m Hm Hm'. replace m with 0 by lia. rewrite Z.add_0_r.
      rewrite (sumG_0 0) by lia. symmetry; apply add_0_r.
    - intros m Hm IH _. rewrite Z.add_assoc, !sumG_S by lia. rewrite IH by lia. symmetry; apply add_assoc.
  Qed.

  Lemma sumG_first n f : 0 <= n -> sumG (n + 1) f = add (f 0) (sumG n (fun i => f (i + 1))).
  Proof.
    intros Hn. rewrite Z.add_comm, sumG_split by lia.
    replace (sumG 1 f) with (f 0).
    - f_equal. apply sumG_ext. intros; f_equal; lia.
    - change 1 with (0 + 1). rewrite sumG_S, sumG_0 by lia. rewrite add_comm, add_0_r. reflexivity.
  Qed.

  Lemma sumG_rev n f : sumG n (fun i => f (n - 1 - i)) = sumG n f.
  Proof.
    revert n. apply (sumG_ind (fun n => sumG n (fun i => f (n - 1 - i)) = sumG n f)).
    - intros n Hn. rewrite !sumG_0 by lia. reflexivity.
    - intros n Hn IH. rewrite sumG_first by lia.
      rewrite (sumG_S n f) by lia. rewrite add_comm. f_equal.
      + rewrite <- IH. apply sumG_ext. intros i Hi. f_equal. lia.
      + f_equal. lia.
  Qed.

  (** Sum over a full period does not depend on where the period starts. *)
  Lemma sumG_periodic_shift1 n f : 0 <= n -> f n = f 0 ->
    sumG n (fun i => f (i + 1)) = sumG n f.
  Proof.
    intros Hn Hp. destruct (Z.eq_dec n 0) as [->|Hnz].
    - rewrite !sumG_0 by lia. reflexivity.
    - replace n with ((n - 1) + 1) by lia. rewrite sumG_S by lia. rewrite sumG_first by lia.
      rewrite add_comm. f_equal. replace (n - 1 + 1) with n by lia. exact Hp.
  Qed.

  Lemma sumG_periodic_shift_nat n f (k : nat) : 0 <= n -> (forall x, f (x + n) = f x) ->
    sumG n (fun i => f (i + Z.of_nat k)) = sumG n f.
  Proof.
    intros Hn Hp. induction k as [|k IH].
    - apply sumG_ext. intros; f_equal; lia.
    - rewrite <- IH. rewrite <- (sumG_periodic_shift1 n (fun i => f (i + Z.of_nat k))); [|lia|].
      + apply sumG_ext. intros; f_equal; lia.
      + rewrite Z.add_0_l. rewrite <- (Hp (Z.of_nat k)). f_equal; lia.
  Qed.

  Lemma periodic_mult (f : Z -> A) n : (forall x, f (x + n) = f x) -> forall k x, f (x + k * n) = f x.
  Proof.
    intros Hp.
    assert (Hk : forall (k : nat) x, f (x + Z.of_nat k * n) = f x).
    { induction k as [|k IH]; intros x; [f_equal; lia|].
      rewrite <- (IH x). rewrite <- (Hp (x + Z.of_nat k * n)). f_equal. lia. }
    intros k x. destruct (Z_le_gt_dec 0 k) as [H|H].
    - replace k with (Z.of_nat (Z.to_nat k)) by lia. apply Hk.
    - rewrite <- (Hk (Z.to_nat (- k)) (x + k * n)). f_equal.
      rewrite Z2Nat.id by lia. lia.
  Qed.

  Lemma periodic_mod (f : Z -> A) n : (forall x, f (x + n) = f x) -> forall x, f (x mod n) = f x.
  Proof.
    intros Hp x. destruct (Z.eq_dec n 0) as [->|Hn].
    { rewrite Zmod_0_r. reflexivity. }
    rewrite <- (periodic_mult f n Hp (x / n) (x mod n)). f_equal.
    rewrite (Z.div_mod x n) at 3 by lia. lia.
  Qed.

  Lemma sumG_periodic_shift n f d : 0 <= n -> (forall x, f (x + n) = f x) ->
    sumG n (fun i => f (i + d)) = sumG n f.
  Proof.
    intros Hn Hp. destruct (Z.eq_dec n 0) as [->|Hnz].
    { rewrite !sumG_0 by lia. reflexivity. }
    rewrite <- (sumG_periodic_shift_nat n f (Z.to_nat (d mod n))) by assumption.
    apply sumG_ext. intros i Hi.
    rewrite Z2Nat.id by (apply Z.mod_pos_bound; lia).
    rewrite <- (periodic_mult f n Hp (d / n) (i + d mod n)). f_equal.
    rewrite (Z.div_mod d n) at 1 by lia. lia.
  Qed.

  (** Reflection i |-> d - i of a periodic summand. *)
  Lemma sumG_periodic_refl n f d : 0 <= n -> (forall x, f (x + n) = f x) ->
    sumG n (fun i => f (d - i)) = sumG n f.
  Proof.
    intros Hn Hp.
    rewrite <- (sumG_rev n (fun i => f (d - i))).
    rewrite <- (sumG_periodic_shift n f (d - n + 1)) by assumption.
    apply sumG_ext. intros; f_equal; lia.
  Qed.

  Lemma sumG_single n f k : 0 <= k < n -> (forall i, 0 <= i < n -> i <> k -> f i = zero) ->
    sumG n f = f k.
  Proof.
    intros Hk H.
    replace n with (k + (n - k)) by lia. rewrite sumG_split by lia.
    rewrite (sumG_const0 k) by (intros; apply H; lia).
    replace (n - k) with ((n - k - 1) + 1) by lia. rewrite sumG_first by lia.
    rewrite (sumG_const0 (n - k - 1)) by (intros; apply H; lia).
    rewrite add_0_r, add_comm, add_0_r. f_equal. lia.
  Qed.
End GenSum.

(** ** Real and complex sums *)
Definition sumR : Z -> (Z -> R) -> R := sumG 0%R Rplus.
Definition sumC : Z -> (Z -> C) -> C := sumG (RtoC 0) Cplus.

Open Scope R_scope.

Section RealSums.
  Let comm := Rplus_comm.
  Let assoc := fun x y z : R => eq_sym (Rplus_assoc x y z).
  Let nr := Rplus_0_r.
  Lemma sumR_0 n f : (n <= 0)%Z -> sumR n f = 0.  Proof. apply sumG_0. Qed.
  Lemma sumR_S n f : (0 <= n)%Z -> sumR (n + 1) f = sumR n f + f n.  Proof. apply sumG_S. Qed.
  Lemma sumR_ext n f g : (forall i, (0 <= i < n)%Z -> f i = g i) -> sumR n f = sumR n g.  Proof. apply sumG_ext. Qed.
  Lemma sumR_const0 n f : (forall i, (0 <= i < n)%Z -> f i = 0) -> sumR n f = 0.  Proof. apply sumG_const0; auto. Qed.
  Lemma sumR_plus n f g : sumR n (fun i => f i + g i) = sumR n f + sumR n g.  Proof. apply sumG_add; auto. Qed.
  Lemma sumR_swap n m f : sumR n (fun i => sumR m (fun j => f i j)) = sumR m (fun j => sumR n (fun i => f i j)).  Proof. apply sumG_swap; auto. Qed.
  Lemma sumR_split n m f : (0 <= n)%Z -> (0 <= m)%Z -> sumR (n + m) f = sumR n f + sumR m (fun i => f (n + i)%Z).  Proof. apply sumG_split; auto. Qed.
  Lemma sumR_first n f : (0 <= n)%Z -> sumR (n + 1) f = f 0%Z + sumR n (fun i => f (i + 1)%Z).  Proof. apply sumG_first; auto. Qed.
  Lemma sumR_rev n f : sumR n (fun i => f (n - 1 - i)%Z) = sumR n f.  Proof. apply sumG_rev; auto. Qed.
  Lemma sumR_periodic_shift n f d : (0 <= n)%Z -> (forall x, f (x + n)%Z = f x) -> sumR n (fun i => f (i + d)%Z) = sumR n f.  Proof. apply sumG_periodic_shift; auto. Qed.
  Lemma sumR_periodic_refl n f d : (0 <= n)%Z -> (forall x, f (x + n)%Z = f x) -> sumR n (fun i => f (d - i)%Z) = sumR n f.  Proof. apply sumG_periodic_refl; auto. Qed.
  Lemma sumR_single n f k : (0 <= k < n)%Z -> (forall i, (0 <= i < n)%Z -> i <> k -> f i = 0) -> sumR n f = f k.  Proof. apply sumG_single; auto. Qed.
End RealSums.

Section ComplexSums.
  Open Scope C_scope.
  Let comm := Cplus_comm.
  Let assoc := Cplus_assoc.
  Let nr := Cplus_0_r.
  Lemma sumC_0 n (f : Z -> C) : (n <= 0)%Z -> sumC n f = RtoC 0.  Proof. apply sumG_0. Qed.
  Lemma sumC_S n (f : Z -> C) : (0 <= n)%Z -> sumC (n + 1) f = sumC n f + f n.  Proof. apply sumG_S. Qed.
  Lemma sumC_ext n (f g : Z -> C) : (forall i, (0 <= i < n)%Z -> f i = g i) -> sumC n f = sumC n g.  Proof. apply sumG_ext. Qed.
  Lemma sumC_const0 n (f : Z -> C) : (forall i, (0 <= i < n)%Z -> f i = RtoC 0) -> sumC n f = RtoC 0.  Proof. apply sumG_const0; auto. Qed.
  Lemma sumC_plus n (f g : Z -> C) : sumC n (fun i => f i + g i) = sumC n f + sumC n g.  Proof. apply sumG_add; auto. Qed.
  Lemma sumC_swap n m (f : Z -> Z -> C) : sumC n (fun i => sumC m (fun j => f i j)) = sumC m (fun j => sumC n (fun i => f i j)).  Proof. apply sumG_swap; auto. Qed.
  Lemma sumC_split n m (f : Z -> C) : (0 <= n)%Z -> (0 <= m)%Z -> sumC (n + m) f = sumC n f + sumC m (fun i => f (n + i)%Z).  Proof. apply sumG_split; auto. Qed.
  Lemma sumC_first n (f : Z -> C) : (0 <= n)%Z -> sumC (n + 1) f = f 0%Z + sumC n (fun i => f (i + 1)%Z).  Proof. apply sumG_first; auto. Qed.
  Lemma sumC_rev n (f : Z -> C) : sumC n (fun i => f (n - 1 - i)%Z) = sumC n f.  Proof. apply sumG_rev; auto. Qed.
  Lemma sumC_periodic_shift n (f : Z -> C) d : (0 <= n)%Z -> (forall x, f (x + n)%Z = f x) -> sumC n (fun i => f (i + d)%Z) = sumC n f.  Proof. apply sumG_periodic_shift; auto. Qed.
  Lemma sumC_periodic_refl n (f : Z -> C) d : (0 <= n)%Z -> (forall x, f (x + n)%Z = f x) -> sumC n (fun i => f (d - i)%Z) = sumC n f.  Proof. apply sumG_periodic_refl; auto. Qed.
  Lemma sumC_single n (f : Z -> C) k : (0 <= k < n)%Z -> (forall i, (0 <= i < n)%Z -> i <> k -> f i = RtoC 0) -> sumC n f = f k.  Proof. apply sumG_single; auto. Qed.
End ComplexSums.

Lemma sumZ_ind (P : Z -> Prop) :
  (forall n, (n <= 0)%Z -> P n) -> (forall n, (0 <= n)%Z -> P n -> P (n + 1)%Z) -> forall n, P n.
Proof. apply sumG_ind. Qed.

Lemma sumR_scal n c f : sumR n (fun i => c * f i) = c * sumR n f.
Proof.
  revert n. apply sumZ_ind.
  - intros n Hn. rewrite !sumR_0 by lia. ring.
  - intros n Hn IH. rewrite !sumR_S by lia. rewrite IH. ring.
Qed.

Lemma sumR_scal_r n c f : sumR n (fun i => f i * c) = sumR n f * c.
Proof. rewrite Rmult_comm, <- sumR_scal. apply sumR_ext. intros; ring. Qed.

Lemma sumR_opp n f : sumR n (fun i => - f i) = - sumR n f.
Proof.
  replace (- sumR n f) with ((-1) * sumR n f) by ring. rewrite <- sumR_scal. apply sumR_ext. intros; ring.
Qed.

Lemma sumR_minus n f g : sumR n (fun i => f i - g i) = sumR n f - sumR n g.
Proof. unfold Rminus. rewrite <- sumR_opp, <- sumR_plus. reflexivity. Qed.

Lemma sumR_const n c : (0 <= n)%Z -> sumR n (fun _ => c) = IZR n * c.
Proof.
  intros H. assert (G : forall n, (0 <= n)%Z -> sumR n (fun _ => c) = IZR n * c); [|auto].
  apply (sumZ_ind (fun n => (0 <= n)%Z -> sumR n (fun _ => c) = IZR n * c)).
  - intros m Hm Hm'. replace m with 0%Z by lia. rewrite sumR_0 by lia. simpl. ring.
  - intros m Hm IH _. rewrite sumR_S by lia. rewrite IH by lia. rewrite plus_IZR. ring.
Qed.

Lemma sumR_le n f g : (forall i, (0 <= i < n)%Z -> f i <= g i) -> sumR n f <= sumR n g.
Proof.
  revert n. apply (sumZ_ind (fun n => (forall i, (0 <= i < n)%Z -> f i <= g i) -> sumR n f <= sumR n g)).
  - intros n Hn _. rewrite !sumR_0 by lia. lra.
  - intros n Hn IH H. rewrite !sumR_S by lia. apply Rplus_le_compat; [apply IH; intros; apply H; lia|apply H; lia].
Qed.

Lemma sumR_nonneg n f : (forall i, (0 <= i < n)%Z -> 0 <= f i) -> 0 <= sumR n f.
Proof.
  intros H. replace 0 with (sumR n (fun _ => 0)) by (apply sumR_const0; reflexivity).
  apply sumR_le; exact H.
Qed.

Lemma sumR_nonneg_0 n f : (forall i, (0 <= i < n)%Z -> 0 <= f i) -> sumR n f = 0 ->
  forall i, (0 <= i < n)%Z -> f i = 0.
Proof.
  revert n. apply (sumZ_ind (fun n => (forall i, (0 <= i < n)%Z -> 0 <= f i) -> sumR n f = 0 -> forall i, (0 <= i < n)%Z -> f i = 0)).
  - intros n Hn _ _ i Hi. lia.
  - intros n Hn IH H Hs i Hi. rewrite sumR_S in Hs by lia.
    assert (H1 : 0 <= sumR n f) by (apply sumR_nonneg; intros; apply H; lia).
    assert (H2 : 0 <= f n) by (apply H; lia).
    destruct (Z.eq_dec i n) as [->|Hin]; [lra|].
    apply IH; [intros; apply H; lia|lra|lia].
Qed.

Lemma sumR_term_le n f k : (forall i, (0 <= i < n)%Z -> 0 <= f i) -> (0 <= k < n)%Z -> f k <= sumR n f.
Proof.
  intros H Hk. replace n with (k + (n - k))%Z by lia. rewrite sumR_split by lia.
  replace (n - k)%Z with ((n - k - 1) + 1)%Z by lia. rewrite sumR_first by lia.
  replace (k + 0)%Z with k by lia.
  assert (0 <= sumR k f) by (apply sumR_nonneg; intros; apply H; lia).
  assert (0 <= sumR (n - k - 1) (fun i => f (k + (i + 1))%Z)) by (apply sumR_nonneg; intros; apply H; lia).
  lra.
Qed.

Lemma sumR_abs n f : Rabs (sumR n f) <= sumR n (fun i => Rabs (f i)).
Proof.
  revert n. apply sumZ_ind.
  - intros n Hn. rewrite !sumR_0 by lia. rewrite Rabs_R0. lra.
  - intros n Hn IH. rewrite !sumR_S by lia. eapply Rle_trans; [apply Rabs_triang|lra].
Qed.

Open Scope C_scope.
Lemma sumC_scal n (c : C) f : sumC n (fun i => c * f i) = c * sumC n f.
Proof.
  revert n. apply sumZ_ind.
  - intros n Hn. rewrite !sumC_0 by lia. ring.
  - intros n Hn IH. rewrite !sumC_S by lia. rewrite IH. ring.
Qed.

Lemma sumC_scal_r n (c : C) f : sumC n (fun i => f i * c) = sumC n f * c.
Proof. rewrite Cmult_comm, <- sumC_scal. apply sumC_ext. intros; ring. Qed.

Lemma sumC_opp n f : sumC n (fun i => - f i) = - sumC n f.
Proof.
  replace (- sumC n f) with ((- (1)) * sumC n f) by ring. rewrite <- sumC_scal. apply sumC_ext. intros; ring.
Qed.

Lemma sumC_minus n f g : sumC n (fun i => f i - g i) = sumC n f - sumC n g.
Proof. unfold Cminus. rewrite <- sumC_opp, <- sumC_plus. reflexivity. Qed.

Lemma sumC_const n (c : C) : (0 <= n)%Z -> sumC n (fun _ => c) = RtoC (IZR n) * c.
Proof.
  intros H. assert (G : forall n, (0 <= n)%Z -> sumC n (fun _ => c) = RtoC (IZR n) * c); [|auto].
  apply (sumZ_ind (fun n => (0 <= n)%Z -> sumC n (fun _ => c) = RtoC (IZR n) * c)).
  - intros m Hm Hm'. replace m with 0%Z by lia. rewrite sumC_0 by lia. ring.
  - intros m Hm IH _. rewrite sumC_S by lia. rewrite IH by lia. rewrite plus_IZR, RtoC_plus. ring.
Qed.

Lemma Re_plus (x y : C) : Re (x + y) = (Re x + Re y)%R.  Proof. reflexivity. Qed.
Lemma Im_plus (x y : C) : Im (x + y) = (Im x + Im y)%R.  Proof. reflexivity. Qed.
Lemma Re_RtoC x : Re (RtoC x) = x.  Proof. reflexivity. Qed.
Lemma Im_RtoC x : Im (RtoC x) = 0%R.  Proof. reflexivity. Qed.
Lemma Re_scal (r : R) (z : C) : Re (RtoC r * z) = (r * Re z)%R.  Proof. unfold Re; simpl. ring. Qed.
Lemma Im_scal (r : R) (z : C) : Im (RtoC r * z) = (r * Im z)%R.  Proof. unfold Im; simpl. ring. Qed.
Lemma C_eq_ReIm (x y : C) : Re x = Re y -> Im x = Im y -> x = y.
Proof. destruct x, y; unfold Re, Im; simpl; intros; subst; reflexivity. Qed.
Lemma Re_conj z : Re (Cconj z) = Re z.  Proof. reflexivity. Qed.
Lemma Im_conj z : Im (Cconj z) = (- Im z)%R.  Proof. reflexivity. Qed.

Lemma Re_sumC n f : Re (sumC n f) = sumR n (fun i => Re (f i)).
Proof.
  revert n. apply sumZ_ind.
  - intros n Hn. rewrite sumC_0, sumR_0 by lia. reflexivity.
  - intros n Hn IH. rewrite sumC_S, sumR_S by lia. rewrite Re_plus, IH. reflexivity.
Qed.

Lemma Im_sumC n f : Im (sumC n f) = sumR n (fun i => Im (f i)).
Proof.
  revert n. apply sumZ_ind.
  - intros n Hn. rewrite sumC_0, sumR_0 by lia. reflexivity.
  - intros n Hn IH. rewrite sumC_S, sumR_S by lia. rewrite Im_plus, IH. reflexivity.
Qed.

Lemma sumC_RtoC n f : sumC n (fun i => RtoC (f i)) = RtoC (sumR n f).
Proof.
  apply C_eq_ReIm.
  - rewrite Re_sumC. reflexivity.
  - rewrite Im_sumC. simpl. apply sumR_const0. reflexivity.
Qed.

Lemma Cconj_plus x y : Cconj (x + y) = Cconj x + Cconj y.
Proof. apply C_eq_ReIm; unfold Re, Im; simpl; ring. Qed.
Lemma Cconj_mult x y : Cconj (x * y) = Cconj x * Cconj y.
Proof. apply C_eq_ReIm; unfold Re, Im; simpl; ring. Qed.
Lemma Cconj_RtoC x : Cconj (RtoC x) = RtoC x.
Proof. apply C_eq_ReIm; unfold Re, Im; simpl; ring. Qed.
Lemma Cconj_inv z : Cconj (Cconj z) = z.
Proof. apply C_eq_ReIm; unfold Re, Im; simpl; ring. Qed.

Lemma Cconj_sumC n f : Cconj (sumC n f) = sumC n (fun i => Cconj (f i)).
Proof.
  revert n. apply sumZ_ind.
  - intros n Hn. rewrite !sumC_0 by lia. apply Cconj_RtoC.
  - intros n Hn IH. rewrite !sumC_S by lia. rewrite Cconj_plus, IH. reflexivity.
Qed.

Lemma Cmod_sumC n f : (Cmod (sumC n f) <= sumR n (fun i => Cmod (f i)))%R.
Proof.
  revert n. apply sumZ_ind.
  - intros n Hn. rewrite sumC_0, sumR_0 by lia. rewrite Cmod_0. lra.
  - intros n Hn IH. rewrite sumC_S, sumR_S by lia. eapply Rle_trans; [apply Cmod_triangle|lra].
Qed.

Lemma Cmult_conj z : z * Cconj z = RtoC (Cmod z ^ 2).
Proof.
  unfold Cmod. rewrite <- Rsqr_pow2, Rsqr_sqrt by nra.
  apply C_eq_ReIm; unfold Re, Im; simpl; ring.
Qed.

Lemma RtoC_neq0 (x : R) : x <> 0%R -> RtoC x <> 0.
Proof. intros H E. apply RtoC_inj in E. contradiction. Qed.

Lemma IZR_neq0 (n : Z) : (n <> 0)%Z -> IZR n <> 0%R.
Proof. intros H. apply not_0_IZR. exact H. Qed.

(** ** cis t = exp(i t)  (models np.exp(1j*t) for real t) *)
Definition cis (t : R) : C := (cos t, sin t).

Lemma cis_0 : cis 0 = 1.
Proof. unfold cis. rewrite cos_0, sin_0. reflexivity. Qed.

Lemma cis_plus a b : cis (a + b) = cis a * cis b.
Proof. unfold cis. apply C_eq_ReIm; unfold Re, Im; simpl; [apply cos_plus|rewrite sin_plus; ring]. Qed.

Lemma cis_opp_conj a : cis (- a) = Cconj (cis a).
Proof. unfold cis, Cconj; simpl. rewrite cos_neg, sin_neg. reflexivity. Qed.

Lemma cis_mult_opp a : cis a * cis (- a) = 1.
Proof. rewrite <- cis_plus, Rplus_opp_r. apply cis_0. Qed.

Lemma Cmod_cis a : Cmod (cis a) = 1%R.
Proof.
  unfold Cmod, cis; simpl fst; simpl snd. replace (cos a ^ 2 + sin a ^ 2)%R with 1%R; [apply sqrt_1|].
  rewrite <- (sin2_cos2 a). unfold Rsqr. ring.
Qed.

Lemma cis_neq0 a : cis a <> 0.
Proof. intros H. assert (E := Cmod_cis a). rewrite H, Cmod_0 in E. lra. Qed.

Lemma cos_2kPI (k : Z) : cos (2 * PI * IZR k) = 1%R.
Proof.
  replace (2 * PI * IZR k)%R with (0 + 2 * IZR k * PI)%R by ring.
  destruct (Z_le_gt_dec 0 k) as [H|H].
  - replace k with (Z.of_nat (Z.to_nat k)) by lia. rewrite <- INR_IZR_INZ, cos_period. apply cos_0.
  - replace (0 + 2 * IZR k * PI)%R with (- (0 + 2 * IZR (- k) * PI))%R by (rewrite opp_IZR; ring).
    rewrite cos_neg. replace (- k)%Z with (Z.of_nat (Z.to_nat (- k))) by lia.
    rewrite <- INR_IZR_INZ, cos_period. apply cos_0.
Qed.

Lemma sin_2kPI (k : Z) : sin (2 * PI * IZR k) = 0%R.
Proof.
  replace (2 * PI * IZR k)%R with (0 + 2 * IZR k * PI)%R by ring.
  destruct (Z_le_gt_dec 0 k) as [H|H].
  - replace k with (Z.of_nat (Z.to_nat k)) by lia. rewrite <- INR_IZR_INZ, sin_period. apply sin_0.
  - replace (0 + 2 * IZR k * PI)%R with (- (0 + 2 * IZR (- k) * PI))%R by (rewrite opp_IZR; ring).
    rewrite sin_neg. replace (- k)%Z with (Z.of_nat (Z.to_nat (- k))) by lia.
    rewrite <- INR_IZR_INZ, sin_period, sin_0. ring.
Qed.

Lemma cis_2kPI (k : Z) : cis (2 * PI * IZR k) = 1.
Proof. unfold cis. rewrite cos_2kPI, sin_2kPI. reflexivity. Qed.

Lemma cis_period (t : R) (k : Z) : cis (t + 2 * PI * IZR k) = cis t.
Proof. rewrite cis_plus, cis_2kPI. ring. Qed.

Lemma cis_congr (s t : R) (k : Z) : (s - t = 2 * PI * IZR k)%R -> cis s = cis t.
Proof. intros H. rewrite <- (cis_period t k). f_equal. lra. Qed.

Lemma cis_eq_1 t : cis t = 1 -> exists k : Z, (t = 2 * PI * IZR k)%R.
Proof.
  intros H. assert (Hc : cos t = 1%R) by (change (cos t) with (Re (cis t)); rewrite H; reflexivity).
  assert (Hs : sin (t / 2) = 0%R).
  { replace t with (2 * (t / 2))%R in Hc by field. rewrite cos_2a_sin in Hc. nra. }
  apply sin_eq_0_0 in Hs. destruct Hs as [k Hk]. exists k. lra.
Qed.

Lemma cis_nat_pow t (k : nat) : cis (t * INR k) = (fix pw (m : nat) : C := match m with O => RtoC 1 | S m' => pw m' * cis t end) k.
Proof.
  induction k as [|k IH].
  - simpl. rewrite Rmult_0_r. apply cis_0.
  - rewrite <- IH, <- cis_plus. f_equal. rewrite S_INR. ring.
Qed.

(** geometric sum *)
Lemma cis_geom n t : (0 <= n)%Z ->
  (cis t - 1) * sumC n (fun k => cis (t * IZR k)) = cis (t * IZR n) - 1.
Proof.
  intros Hn. revert Hn.
  apply (sumZ_ind (fun n => (0 <= n)%Z -> (cis t - 1) * sumC n (fun k => cis (t * IZR k)) = cis (t * IZR n) - 1)).
  - intros m Hm Hm'. replace m with 0%Z by lia. rewrite sumC_0 by lia. rewrite Rmult_0_r, cis_0. ring.
  - intros m Hm IH _. rewrite sumC_S by lia. rewrite Cmult_plus_distr_l, IH by lia.
    rewrite plus_IZR, Rmult_plus_distr_l, cis_plus, Rmult_1_r. ring.
Qed.

(** orthogonality of characters *)
Lemma char_sum n (j : Z) : (0 < n)%Z ->
  sumC n (fun k => cis (2 * PI * (IZR k * IZR j / IZR n))) =
  if Z.eqb (j mod n) 0 then RtoC (IZR n) else 0.
Proof.
  intros Hn. assert (Hn' : IZR n <> 0%R) by (apply IZR_neq0; lia).
  rewrite (sumC_ext n _ (fun k => cis ((2 * PI * (IZR j / IZR n)) * IZR k))).
  2:{ intros i _. f_equal. field. exact Hn'. }
  destruct (Z.eqb_spec (j mod n) 0) as [E|E].
  - rewrite (sumC_ext n _ (fun _ => 1)).
    + rewrite sumC_const by lia. ring.
    + intros k _. apply Z.mod_divide in E; [|lia]. destruct E as [q Hq]. subst j.
      rewrite mult_IZR. rewrite <- (cis_2kPI (q * k)). f_equal. rewrite mult_IZR. field. exact Hn'.
  - assert (G := cis_geom n (2 * PI * (IZR j / IZR n)) ltac:(lia)).
    replace (2 * PI * (IZR j / IZR n) * IZR n)%R with (2 * PI * IZR j)%R in G by (field; exact Hn').
    rewrite cis_2kPI in G.
    replace (1 - 1) with (RtoC 0) in G by ring.
    set (S := sumC n _) in *.
    assert (Hne : cis (2 * PI * (IZR j / IZR n)) - 1 <> 0).
    { intros H0. assert (H1 : cis (2 * PI * (IZR j / IZR n)) = 1).
      { replace (cis (2 * PI * (IZR j / IZR n))) with ((cis (2 * PI * (IZR j / IZR n)) - 1) + 1) by ring.
        rewrite H0. ring. }
      apply cis_eq_1 in H1. destruct H1 as [k Hk].
      assert (HPI := PI_RGT_0).
      assert (Hk' : (IZR j / IZR n = IZR k)%R) by (apply (Rmult_eq_reg_l (2 * PI)); lra).
      assert (Hj : (IZR j = IZR (k * n))%R) by (rewrite mult_IZR; rewrite <- Hk'; field; exact Hn').
      apply eq_IZR in Hj. subst j. apply E. apply Z.mod_mul. lia. }
    replace S with (/ (cis (2 * PI * (IZR j / IZR n)) - 1) * ((cis (2 * PI * (IZR j / IZR n)) - 1) * S)).
    + rewrite G. ring.
    + field. exact Hne.
Qed.
