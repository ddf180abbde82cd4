(** N-dimensional index spaces and sums over them.  No repository code is modelled here. *)
From Coq Require Import ZArith Lia List Reals Lra Bool.
From Coquelicot Require Import Complex.
From Verif Require Import Base.
Import ListNotations.
Open Scope Z_scope.

(** Pointwise combination of two lists, stopping at the shorter one (Python's [zip]). *)
Fixpoint zipw {A B D} (f : A -> B -> D) (l : list A) (m : list B) : list D :=
  match l, m with
  | x :: l', y :: m' => f x y :: zipw f l' m'
  | _, _ => []
  end.

Lemma zipw_length {A B D} (f : A -> B -> D) l m : length (zipw f l m) = Nat.min (length l) (length m).
Proof. revert m; induction l as [|x l IH]; destruct m; simpl; auto. Qed.

(** [inb sh i]: [i] is a valid index tuple of an array of shape [sh]. *)
Fixpoint inb (sh i : list Z) : Prop :=
  match sh, i with
  | [], [] => True
  | n :: sh', x :: i' => 0 <= x < n /\ inb sh' i'
  | _, _ => False
  end.

Fixpoint inbb (sh i : list Z) : bool :=
  match sh, i with
  | [], [] => true
  | n :: sh', x :: i' => (0 <=? x) && (x <? n) && inbb sh' i'
  | _, _ => false
  end.

Lemma inbb_spec sh i : inbb sh i = true <-> inb sh i.
Proof.
  revert i; induction sh as [|n sh IH]; intros [|x i]; simpl; split; intros H; auto; try discriminate; try tauto.
  - apply andb_prop in H. destruct H as [H1 H2]. apply andb_prop in H1. destruct H1 as [Ha Hb].
    split; [lia|]. apply IH; exact H2.
  - destruct H as [H1 H2]. apply IH in H2. rewrite H2. rewrite !andb_true_iff. lia.
Qed.

Lemma inb_dec sh i : {inb sh i} + {~ inb sh i}.
Proof.
  destruct (inbb sh i) eqn:E.
  - left. apply inbb_spec; exact E.
  - right. intros H. apply inbb_spec in H. congruence.
Qed.

Lemma inb_length sh i : inb sh i -> length i = length sh.
Proof. revert i; induction sh as [|n sh IH]; intros [|x i]; simpl; intros H; try tauto. f_equal. apply IH; tauto. Qed.

Definition pos_shape (sh : list Z) : Prop := Forall (fun n => 0 < n) sh.
Definition pos_shapeb (sh : list Z) : bool := forallb (fun n => 0 <? n) sh.

Lemma pos_shapeb_spec sh : pos_shapeb sh = true <-> pos_shape sh.
Proof.
  unfold pos_shapeb, pos_shape. rewrite forallb_forall, Forall_forall.
  split; intros H x Hx; specialize (H x Hx); lia.
Qed.

Lemma pos_shape_cons n sh : pos_shape (n :: sh) <-> 0 < n /\ pos_shape sh.
Proof. unfold pos_shape. split; intros H; [inversion H; auto|constructor; tauto]. Qed.

Fixpoint prodZ (sh : list Z) : Z := match sh with [] => 1 | n :: sh' => n * prodZ sh' end.

Lemma prodZ_pos sh : pos_shape sh -> 0 < prodZ sh.
Proof. induction 1; simpl; nia. Qed.

Definition addl := zipw Z.add.
Definition subl := zipw Z.sub.
Definition modl (sh i : list Z) := zipw Z.modulo i sh.
Definition zerosl (sh : list Z) : list Z := map (fun _ => 0) sh.

Lemma modl_inb sh i : pos_shape sh -> length i = length sh -> inb sh (modl sh i).
Proof.
  revert i; induction sh as [|n sh IH]; intros [|x i] Hp Hl; simpl in *; try discriminate; auto.
  apply pos_shape_cons in Hp. destruct Hp as [Hn Hp].
  split; [apply Z.mod_pos_bound; lia|]. apply IH; auto.
Qed.

Lemma modl_small sh i : inb sh i -> modl sh i = i.
Proof.
  revert i; induction sh as [|n sh IH]; intros [|x i] H; simpl in *; try tauto.
  destruct H as [H1 H2]. unfold modl in *; simpl. rewrite Z.mod_small by lia. f_equal. apply IH; exact H2.
Qed.

Lemma inb_zeros sh : pos_shape sh -> inb sh (zerosl sh).
Proof. induction 1; simpl; auto. split; [lia|auto]. Qed.

Lemma addl_length a b : length (addl a b) = Nat.min (length a) (length b).
Proof. apply zipw_length. Qed.
Lemma subl_length a b : length (subl a b) = Nat.min (length a) (length b).
Proof. apply zipw_length. Qed.
Lemma modl_length sh i : length (modl sh i) = Nat.min (length i) (length sh).
Proof. apply zipw_length. Qed.

(** ** N-D sums *)
Section GenSumN.
  Context {A : Type} (zero : A) (add : A -> A -> A).
  Fixpoint sumNG (sh : list Z) (f : list Z -> A) : A :=
    match sh with
    | [] => f []
    | n :: sh' => sumG zero add n (fun i => sumNG sh' (fun l => f (i :: l)))
    end.

  Hypothesis add_comm : forall x y, add x y = add y x.
  Hypothesis add_assoc : forall x y z, add x (add y z) = add (add x y) z.
  Hypothesis add_0_r : forall x, add x zero = x.

  Lemma sumNG_ext sh f g : (forall i, inb sh i -> f i = g i) -> sumNG sh f = sumNG sh g.
  Proof.
    revert f g; induction sh as [|n sh IH]; intros f g H; simpl.
    - apply H. simpl; auto.
    - apply sumG_ext. intros i Hi. apply IH. intros l Hl. apply H. simpl; auto.
  Qed.

  Lemma sumNG_const0 sh f : (forall i, inb sh i -> f i = zero) -> sumNG sh f = zero.
  Proof.
    revert f; induction sh as [|n sh IH]; intros f H; simpl.
    - apply H; simpl; auto.
    - apply sumG_const0; auto. intros i Hi. apply IH. intros l Hl. apply H; simpl; auto.
  Qed.

  Lemma sumNG_add sh f g : sumNG sh (fun i => add (f i) (g i)) = add (sumNG sh f) (sumNG sh g).
  Proof.
    revert f g; induction sh as [|n sh IH]; intros f g; simpl; auto.
    rewrite <- sumG_add by auto. apply sumG_ext. intros i Hi. apply IH.
  Qed.

  Lemma sumNG_sumG sh n (f : list Z -> Z -> A) :
    sumNG sh (fun l => sumG zero add n (fun i => f l i)) = sumG zero add n (fun i => sumNG sh (fun l => f l i)).
  Proof.
    revert f; induction sh as [|m sh IH]; intros f; simpl; auto.
    rewrite sumG_swap by auto. apply sumG_ext. intros i Hi. apply IH.
  Qed.

  Lemma sumNG_swap sh sh' (f : list Z -> list Z -> A) :
    sumNG sh (fun i => sumNG sh' (fun j => f i j)) = sumNG sh' (fun j => sumNG sh (fun i => f i j)).
  Proof.
    revert f; induction sh' as [|n sh' IH]; intros f; simpl; auto.
    rewrite sumNG_sumG. apply sumG_ext. intros i Hi. apply IH.
  Qed.

  Lemma sumNG_single sh f k : inb sh k -> (forall i, inb sh i -> i <> k -> f i = zero) -> sumNG sh f = f k.
  Proof.
    revert f k; induction sh as [|n sh IH]; intros f [|k ks] Hk H; simpl in *; try tauto.
    destruct Hk as [Hk Hks].
    rewrite (sumG_single _ _ add_comm add_assoc add_0_r n _ k); [|exact Hk|].
    2:{ intros i Hi Hne. apply sumNG_const0; intros l Hl; apply H; simpl; auto. congruence. }
    apply (IH (fun l => f (k :: l)) ks); auto. intros l Hl Hne. apply H; simpl; auto. congruence.
  Qed.

  Lemma sumG_mod_shift n f d : 0 < n -> sumG zero add n (fun i => f ((i + d) mod n)) = sumG zero add n f.
  Proof.
    intros Hn.
    rewrite (sumG_periodic_shift zero add add_comm add_assoc add_0_r n (fun x => f (x mod n)) d);
      [|lia|intros x; f_equal; rewrite <- (Z_mod_plus_full x 1 n); f_equal; lia].
    apply sumG_ext. intros i Hi. f_equal. apply Z.mod_small; lia.
  Qed.

  Lemma sumG_mod_refl n f d : 0 < n -> sumG zero add n (fun i => f ((d - i) mod n)) = sumG zero add n f.
  Proof.
    intros Hn.
    rewrite (sumG_periodic_refl zero add add_comm add_assoc add_0_r n (fun x => f (x mod n)) d);
      [|lia|intros x; f_equal; rewrite <- (Z_mod_plus_full x 1 n); f_equal; lia].
    apply sumG_ext. intros i Hi. f_equal. apply Z.mod_small; lia.
  Qed.

  Lemma sumNG_mod_shift sh f d : pos_shape sh -> length d = length sh ->
    sumNG sh (fun i => f (modl sh (addl i d))) = sumNG sh f.
  Proof.
    revert f d; induction sh as [|n sh IH]; intros f [|x d] Hp Hl; simpl in *; try discriminate; auto.
    apply pos_shape_cons in Hp. destruct Hp as [Hn Hp].
    rewrite <- (sumG_mod_shift n (fun i => sumNG sh (fun l => f (i :: l))) x Hn).
    apply sumG_ext. intros i Hi.
    rewrite <- (IH (fun l => f ((i + x) mod n :: l)) d) by (auto; lia).
    reflexivity.
  Qed.

  Lemma sumNG_mod_refl sh f d : pos_shape sh -> length d = length sh ->
    sumNG sh (fun i => f (modl sh (subl d i))) = sumNG sh f.
  Proof.
    revert f d; induction sh as [|n sh IH]; intros f [|x d] Hp Hl; simpl in *; try discriminate; auto.
    apply pos_shape_cons in Hp. destruct Hp as [Hn Hp].
    rewrite <- (sumG_mod_refl n (fun i => sumNG sh (fun l => f (i :: l))) x Hn).
    apply sumG_ext. intros i Hi.
    rewrite <- (IH (fun l => f ((x - i) mod n :: l)) d) by (auto; lia).
    reflexivity.
  Qed.
End GenSumN.

Definition sumNR : list Z -> (list Z -> R) -> R := sumNG 0%R Rplus.
Definition sumNC : list Z -> (list Z -> C) -> C := sumNG (RtoC 0) Cplus.

Open Scope R_scope.
Lemma Rplus_assoc' (x y z : R) : x + (y + z) = x + y + z.  Proof. ring. Qed.

Lemma sumNR_ext sh f g : (forall i, inb sh i -> f i = g i) -> sumNR sh f = sumNR sh g.  Proof. apply sumNG_ext. Qed.
Lemma sumNR_const0 sh f : (forall i, inb sh i -> f i = 0) -> sumNR sh f = 0.  Proof. apply sumNG_const0; exact Rplus_0_r. Qed.
Lemma sumNR_plus sh f g : sumNR sh (fun i => f i + g i) = sumNR sh f + sumNR sh g.  Proof. apply sumNG_add; [exact Rplus_comm|exact Rplus_assoc'|exact Rplus_0_r]. Qed.
Lemma sumNR_swap sh sh' f : sumNR sh (fun i => sumNR sh' (fun j => f i j)) = sumNR sh' (fun j => sumNR sh (fun i => f i j)).  Proof. apply sumNG_swap; [exact Rplus_comm|exact Rplus_assoc'|exact Rplus_0_r]. Qed.
Lemma sumNR_single sh f k : inb sh k -> (forall i, inb sh i -> i <> k -> f i = 0) -> sumNR sh f = f k.  Proof. apply sumNG_single; [exact Rplus_comm|exact Rplus_assoc'|exact Rplus_0_r]. Qed.
Lemma sumNR_mod_shift sh f d : pos_shape sh -> length d = length sh -> sumNR sh (fun i => f (modl sh (addl i d))) = sumNR sh f.  Proof. apply sumNG_mod_shift; [exact Rplus_comm|exact Rplus_assoc'|exact Rplus_0_r]. Qed.
Lemma sumNR_mod_refl sh f d : pos_shape sh -> length d = length sh -> sumNR sh (fun i => f (modl sh (subl d i))) = sumNR sh f.  Proof. apply sumNG_mod_refl; [exact Rplus_comm|exact Rplus_assoc'|exact Rplus_0_r]. Qed.
Lemma sumR_mod_shift n f d : (0 < n)%Z -> sumR n (fun i => f ((i + d) mod n)%Z) = sumR n f.  Proof. apply sumG_mod_shift; [exact Rplus_comm|exact Rplus_assoc'|exact Rplus_0_r]. Qed.
Lemma sumR_mod_refl n f d : (0 < n)%Z -> sumR n (fun i => f ((d - i) mod n)%Z) = sumR n f.  Proof. apply sumG_mod_refl; [exact Rplus_comm|exact Rplus_assoc'|exact Rplus_0_r]. Qed.

Open Scope C_scope.
Lemma sumNC_ext sh (f g : list Z -> C) : (forall i, inb sh i -> f i = g i) -> sumNC sh f = sumNC sh g.  Proof. apply sumNG_ext. Qed.
Lemma sumNC_const0 sh (f : list Z -> C) : (forall i, inb sh i -> f i = RtoC 0) -> sumNC sh f = RtoC 0.  Proof. apply sumNG_const0; exact Cplus_0_r. Qed.
Lemma sumNC_plus sh (f g : list Z -> C) : sumNC sh (fun i => f i + g i) = sumNC sh f + sumNC sh g.  Proof. apply sumNG_add; [exact Cplus_comm|exact Cplus_assoc|exact Cplus_0_r]. Qed.
Lemma sumNC_swap sh sh' (f : list Z -> list Z -> C) : sumNC sh (fun i => sumNC sh' (fun j => f i j)) = sumNC sh' (fun j => sumNC sh (fun i => f i j)).  Proof. apply sumNG_swap; [exact Cplus_comm|exact Cplus_assoc|exact Cplus_0_r]. Qed.
Lemma sumNC_sumC sh n (f : list Z -> Z -> C) : sumNC sh (fun l => sumC n (fun i => f l i)) = sumC n (fun i => sumNC sh (fun l => f l i)).  Proof. apply sumNG_sumG; [exact Cplus_comm|exact Cplus_assoc|exact Cplus_0_r]. Qed.
Lemma sumNC_single sh (f : list Z -> C) k : inb sh k -> (forall i, inb sh i -> i <> k -> f i = RtoC 0) -> sumNC sh f = f k.  Proof. apply sumNG_single; [exact Cplus_comm|exact Cplus_assoc|exact Cplus_0_r]. Qed.
Lemma sumNC_mod_shift sh (f : list Z -> C) d : pos_shape sh -> length d = length sh -> sumNC sh (fun i => f (modl sh (addl i d))) = sumNC sh f.  Proof. apply sumNG_mod_shift; [exact Cplus_comm|exact Cplus_assoc|exact Cplus_0_r]. Qed.
Lemma sumNC_mod_refl sh (f : list Z -> C) d : pos_shape sh -> length d = length sh -> sumNC sh (fun i => f (modl sh (subl d i))) = sumNC sh f.  Proof. apply sumNG_mod_refl; [exact Cplus_comm|exact Cplus_assoc|exact Cplus_0_r]. Qed.
Lemma sumC_mod_shift n (f : Z -> C) d : (0 < n)%Z -> sumC n (fun i => f ((i + d) mod n)%Z) = sumC n f.  Proof. apply sumG_mod_shift; [exact Cplus_comm|exact Cplus_assoc|exact Cplus_0_r]. Qed.
Lemma sumC_mod_refl n (f : Z -> C) d : (0 < n)%Z -> sumC n (fun i => f ((d - i) mod n)%Z) = sumC n f.  Proof. apply sumG_mod_refl; [exact Cplus_comm|exact Cplus_assoc|exact Cplus_0_r]. Qed.

Lemma sumNC_nil f : sumNC [] f = f [].  Proof. reflexivity. Qed.
Lemma sumNC_cons n sh f : sumNC (n :: sh) f = sumC n (fun i => sumNC sh (fun l => f (i :: l))).  Proof. reflexivity. Qed.
Lemma sumNR_nil f : sumNR [] f = f [].  Proof. reflexivity. Qed.
Lemma sumNR_cons n sh f : sumNR (n :: sh) f = sumR n (fun i => sumNR sh (fun l => f (i :: l))).  Proof. reflexivity. Qed.

Lemma sumNC_scal sh (c : C) f : sumNC sh (fun i => c * f i) = c * sumNC sh f.
Proof.
  revert f; induction sh as [|n sh IH]; intros f; [reflexivity|].
  rewrite !sumNC_cons. rewrite <- sumC_scal. apply sumC_ext. intros i Hi. apply IH.
Qed.
Lemma sumNC_scal_r sh (c : C) f : sumNC sh (fun i => f i * c) = sumNC sh f * c.
Proof. rewrite Cmult_comm, <- sumNC_scal. apply sumNC_ext. intros; ring. Qed.
Lemma sumNC_opp sh f : sumNC sh (fun i => - f i) = - sumNC sh f.
Proof.
  replace (- sumNC sh f) with ((- (1)) * sumNC sh f) by ring. rewrite <- sumNC_scal. apply sumNC_ext. intros; ring.
Qed.
Lemma sumNC_minus sh f g : sumNC sh (fun i => f i - g i) = sumNC sh f - sumNC sh g.
Proof. unfold Cminus. rewrite <- sumNC_opp, <- sumNC_plus. reflexivity. Qed.

(** factorisation of a sum of products over the first axis *)
Lemma sumNC_factor n sh (f : Z -> C) (g : list Z -> C) :
  sumC n (fun i => sumNC sh (fun l => f i * g l)) = sumC n f * sumNC sh g.
Proof.
  rewrite <- sumC_scal_r. apply sumC_ext. intros i Hi. apply sumNC_scal.
Qed.

Lemma Re_sumNC sh f : Re (sumNC sh f) = sumNR sh (fun i => Re (f i)).
Proof.
  revert f; induction sh as [|n sh IH]; intros f; [reflexivity|].
  rewrite sumNC_cons, sumNR_cons, Re_sumC. apply sumR_ext. intros i Hi. apply IH.
Qed.
Lemma Im_sumNC sh f : Im (sumNC sh f) = sumNR sh (fun i => Im (f i)).
Proof.
  revert f; induction sh as [|n sh IH]; intros f; [reflexivity|].
  rewrite sumNC_cons, sumNR_cons, Im_sumC. apply sumR_ext. intros i Hi. apply IH.
Qed.
Lemma sumNC_RtoC sh f : sumNC sh (fun i => RtoC (f i)) = RtoC (sumNR sh f).
Proof.
  apply C_eq_ReIm; [rewrite Re_sumNC; reflexivity|].
  rewrite Im_sumNC. simpl. apply sumNR_const0. reflexivity.
Qed.
Lemma Cconj_sumNC sh f : Cconj (sumNC sh f) = sumNC sh (fun i => Cconj (f i)).
Proof.
  revert f; induction sh as [|n sh IH]; intros f; [reflexivity|].
  rewrite !sumNC_cons, Cconj_sumC. apply sumC_ext. intros i Hi. apply IH.
Qed.

Open Scope R_scope.
Lemma sumNR_scal sh c f : sumNR sh (fun i => c * f i) = c * sumNR sh f.
Proof.
  revert f; induction sh as [|n sh IH]; intros f; [reflexivity|].
  rewrite !sumNR_cons. rewrite <- sumR_scal. apply sumR_ext. intros i Hi. apply IH.
Qed.
Lemma sumNR_scal_r sh c f : sumNR sh (fun i => f i * c) = sumNR sh f * c.
Proof. rewrite Rmult_comm, <- sumNR_scal. apply sumNR_ext. intros; ring. Qed.
Lemma sumNR_opp sh f : sumNR sh (fun i => - f i) = - sumNR sh f.
Proof.
  replace (- sumNR sh f) with ((-1) * sumNR sh f) by ring. rewrite <- sumNR_scal. apply sumNR_ext. intros; ring.
Qed.
Lemma sumNR_minus sh f g : sumNR sh (fun i => f i - g i) = sumNR sh f - sumNR sh g.
Proof. unfold Rminus. rewrite <- sumNR_opp, <- sumNR_plus. reflexivity. Qed.

Lemma sumNR_le sh f g : (forall i, inb sh i -> f i <= g i) -> sumNR sh f <= sumNR sh g.
Proof.
  revert f g; induction sh as [|n sh IH]; intros f g H.
  - apply H; simpl; auto.
  - rewrite !sumNR_cons. apply sumR_le. intros i Hi. apply IH. intros l Hl. apply H; simpl; auto.
Qed.
Lemma sumNR_nonneg sh f : (forall i, inb sh i -> 0 <= f i) -> 0 <= sumNR sh f.
Proof.
  intros H. replace 0 with (sumNR sh (fun _ => 0)) by (apply sumNR_const0; reflexivity). apply sumNR_le; exact H.
Qed.
Lemma sumNR_nonneg_0 sh f : (forall i, inb sh i -> 0 <= f i) -> sumNR sh f = 0 ->
  forall i, inb sh i -> f i = 0.
Proof.
  revert f; induction sh as [|n sh IH]; intros f H Hs i Hi.
  { destruct i; [exact Hs|destruct Hi]. }
  destruct i as [|x i]; [destruct Hi|]. destruct Hi as [Hx Hi].
  rewrite sumNR_cons in Hs.
  apply (IH (fun l => f (x :: l))); auto.
  + intros l Hl. apply H; simpl; auto.
  + apply (sumR_nonneg_0 n (fun i => sumNR sh (fun l => f (i :: l)))); auto.
    intros j Hj. apply sumNR_nonneg. intros l Hl. apply H; simpl; auto.
Qed.
Lemma sumNR_const sh c : pos_shape sh -> sumNR sh (fun _ => c) = IZR (prodZ sh) * c.
Proof.
  intros Hp. revert c. induction sh as [|n sh IH]; intros c; [simpl; ring_simplify; reflexivity|].
  apply pos_shape_cons in Hp. destruct Hp as [Hn Hp].
  rewrite sumNR_cons, (sumR_ext n _ (fun _ => IZR (prodZ sh) * c)) by (intros; apply IH; auto).
  rewrite sumR_const by lia. simpl prodZ. rewrite mult_IZR. ring.
Qed.
Lemma sumNR_term_le sh f k : (forall i, inb sh i -> 0 <= f i) -> inb sh k -> f k <= sumNR sh f.
Proof.
  revert f k; induction sh as [|n sh IH]; intros f [|x k] H Hk; simpl in Hk; try tauto; [simpl; lra|].
  destruct Hk as [Hx Hk]. rewrite sumNR_cons.
  apply Rle_trans with (sumNR sh (fun l => f (x :: l))).
  - apply (IH (fun l => f (x :: l))); auto. intros l Hl; apply H; simpl; auto.
  - apply (sumR_term_le n (fun i => sumNR sh (fun l => f (i :: l)))); auto.
    intros i Hi. apply sumNR_nonneg. intros l Hl. apply H; simpl; auto.
Qed.
Lemma Cmod_sumNC sh f : Cmod (sumNC sh f) <= sumNR sh (fun i => Cmod (f i)).
Proof.
  revert f; induction sh as [|n sh IH]; intros f; [simpl; lra|].
  rewrite sumNC_cons, sumNR_cons. eapply Rle_trans; [apply Cmod_sumC|]. apply sumR_le. intros i Hi. apply IH.
Qed.
Lemma sumNC_const sh c : pos_shape sh -> sumNC sh (fun _ => c) = Cmult (RtoC (IZR (prodZ sh))) c.
Proof.
  intros Hp. revert c. induction sh as [|n sh IH]; intros c; [simpl; ring|].
  apply pos_shape_cons in Hp. destruct Hp as [Hn Hp].
  rewrite sumNC_cons, (sumC_ext n _ (fun _ => Cmult (RtoC (IZR (prodZ sh))) c)) by (intros; apply IH; auto).
  rewrite sumC_const by lia. simpl prodZ. rewrite mult_IZR, RtoC_mult. ring.
Qed.
