(** numpy argmin/argmax (first extremum in C order), min/max of selections: definitions and specifications. *)
From Coq Require Import ZArith Lia List Reals Lra Bool.
From Verif Require Import Base NDim Py M_downsample L_downsample.
Import ListNotations.
Open Scope R_scope.

Fixpoint argmin_nat (n : nat) (f : Z -> R) : Z :=
  match n with
  | O => 0%Z
  | S m => let k := argmin_nat m f in if Rlt_dec (f (Z.of_nat m)) (f k) then Z.of_nat m else k
  end.
(** a.argmin() of a 1-D array of length n (n > 0): the first index of the minimum *)
Definition argmin (n : Z) (f : Z -> R) : Z := argmin_nat (Z.to_nat n) f.
Definition argmax (n : Z) (f : Z -> R) : Z := argmin n (fun i => - f i).
(** np.unravel_index(a.argmin(), a.shape) for a 2-D array: C order *)
Definition unravel (nx k : Z) : Z * Z := (k / nx, k mod nx)%Z.
Definition argmin2 (ny nx : Z) (f : Z -> Z -> R) : Z * Z :=
  unravel nx (argmin (ny * nx) (fun k => f (k / nx)%Z (k mod nx)%Z)).
Definition argmax2 (ny nx : Z) (f : Z -> Z -> R) : Z * Z := argmin2 ny nx (fun i j => - f i j).

Lemma argmin_nat_spec n f : (0 < n)%nat ->
  let k := argmin_nat n f in (0 <= k < Z.of_nat n)%Z /\
  (forall i, (0 <= i < Z.of_nat n)%Z -> f k <= f i) /\ (forall i, (0 <= i < k)%Z -> f k < f i).
Proof.
  induction n as [|n IH]; [lia|]. intros _. destruct n as [|n].
  - cbn [argmin_nat]. change (Z.of_nat 0) with 0%Z. destruct (Rlt_dec (f 0%Z) (f 0%Z)); [lra|]. split; [lia|].
    split; intros i Hi; [replace i with 0%Z by lia; lra|lia].
  - specialize (IH ltac:(lia)). cbv zeta in IH. destruct IH as [H1 [H2 H3]].
    remember (S n) as m. cbn [argmin_nat]. set (k := argmin_nat m f) in *. destruct (Rlt_dec (f (Z.of_nat m)) (f k)).
    + split; [lia|]. split; intros i Hi.
      * destruct (Z.eq_dec i (Z.of_nat m)) as [->|]; [lra|]. specialize (H2 i ltac:(lia)). lra.
      * specialize (H2 i ltac:(lia)). lra.
    + split; [lia|]. split; intros i Hi.
      * destruct (Z.eq_dec i (Z.of_nat m)) as [->|]; [lra|]. apply H2. lia.
      * apply H3. lia.
Qed.

Lemma argmin_spec n f : (0 < n)%Z ->
  let k := argmin n f in (0 <= k < n)%Z /\
  (forall i, (0 <= i < n)%Z -> f k <= f i) /\ (forall i, (0 <= i < k)%Z -> f k < f i).
Proof.
  intros H. unfold argmin. assert (G := argmin_nat_spec (Z.to_nat n) f ltac:(lia)). rewrite Z2Nat.id in G by lia. exact G.
Qed.

Lemma flat_range ny nx k : (0 < nx)%Z -> (0 <= k < ny * nx)%Z -> (0 <= k / nx < ny /\ 0 <= k mod nx < nx)%Z.
Proof.
  intros Hx Hk. split; [split; [apply Z.div_pos; lia|apply Z.div_lt_upper_bound; lia]|apply Z.mod_pos_bound; lia].
Qed.
Lemma flat_of nx y x : (0 <= x < nx)%Z -> ((y * nx + x) / nx = y /\ (y * nx + x) mod nx = x)%Z.
Proof.
  intros H. split.
  - rewrite Z.add_comm, Z.div_add by lia. rewrite Z.div_small by lia. lia.
  - rewrite Z.add_comm, Z.mod_add by lia. apply Z.mod_small. lia.
Qed.

(** [p] is the first pixel, in C order, at which [f] is minimal *)
Definition is_argmin2 (ny nx : Z) (f : Z -> Z -> R) (p : Z * Z) : Prop :=
  (0 <= fst p < ny)%Z /\ (0 <= snd p < nx)%Z /\
  (forall i j, (0 <= i < ny)%Z -> (0 <= j < nx)%Z -> f (fst p) (snd p) <= f i j) /\
  (forall i j, (0 <= i < ny)%Z -> (0 <= j < nx)%Z -> (i < fst p \/ i = fst p /\ j < snd p)%Z -> f (fst p) (snd p) < f i j).

Lemma argmin2_spec ny nx f : (0 < ny)%Z -> (0 < nx)%Z -> is_argmin2 ny nx f (argmin2 ny nx f).
Proof.
  intros Hy Hx. unfold argmin2, unravel, is_argmin2. cbn [fst snd].
  assert (Hp : (0 < ny * nx)%Z) by nia.
  destruct (argmin_spec (ny * nx) (fun k => f (k / nx)%Z (k mod nx)%Z) Hp) as [H1 [H2 H3]].
  set (k := argmin (ny * nx) _) in *. assert (R := flat_range ny nx k Hx H1). split; [tauto|]. split; [tauto|]. split.
  - intros i j Hi Hj. destruct (flat_of nx i j Hj) as [E1 E2]. specialize (H2 (i * nx + j)%Z ltac:(nia)). rewrite E1, E2 in H2. exact H2.
  - intros i j Hi Hj Hlt. destruct (flat_of nx i j Hj) as [E1 E2].
    assert (Hk : k = (k / nx * nx + k mod nx)%Z) by (rewrite (Z_div_mod_eq_full k nx) at 1; lia).
    specialize (H3 (i * nx + j)%Z). rewrite E1, E2 in H3. apply H3. split; [nia|]. rewrite Hk. nia.
Qed.

Lemma is_argmin2_unique ny nx f p q : is_argmin2 ny nx f p -> is_argmin2 ny nx f q -> p = q.
Proof.
  destruct p as [a b], q as [c d]. intros [P1 [P2 [P3 P4]]] [Q1 [Q2 [Q3 Q4]]]. cbn [fst snd] in *.
  assert (A := P3 c d Q1 Q2). assert (B := Q3 a b P1 P2).
  destruct (Z.lt_trichotomy a c) as [L|[E|L]].
  - specialize (Q4 a b P1 P2 ltac:(lia)). lra.
  - subst c. destruct (Z.lt_trichotomy b d) as [L|[E|L]].
    + specialize (Q4 a b P1 P2 ltac:(lia)). lra.
    + congruence.
    + specialize (P4 a d Q1 Q2 ltac:(lia)). lra.
  - specialize (P4 c d Q1 Q2 ltac:(lia)). lra.
Qed.

(** argmin only looks at the pixels *)
Lemma argmin2_ext ny nx f g : (0 < ny)%Z -> (0 < nx)%Z -> (forall i j, (0 <= i < ny)%Z -> (0 <= j < nx)%Z -> f i j = g i j) ->
  argmin2 ny nx f = argmin2 ny nx g.
Proof.
  intros Hy Hx H. apply (is_argmin2_unique ny nx f); [apply argmin2_spec; auto|].
  destruct (argmin2_spec ny nx g Hy Hx) as [A [B [P Q]]]. split; [auto|]. split; [auto|].
  split; intros; rewrite !H by auto; auto.
Qed.
(** ... and only at their order *)
Lemma argmin2_mono ny nx f g : (0 < ny)%Z -> (0 < nx)%Z ->
  (forall i j k l, (0 <= i < ny)%Z -> (0 <= j < nx)%Z -> (0 <= k < ny)%Z -> (0 <= l < nx)%Z -> (f i j < f k l <-> g i j < g k l)) ->
  argmin2 ny nx f = argmin2 ny nx g.
Proof.
  intros Hy Hx H. apply (is_argmin2_unique ny nx f); [apply argmin2_spec; auto|].
  destruct (argmin2_spec ny nx g Hy Hx) as [A [B [P Q]]]. split; [auto|]. split; [auto|]. split; intros i j Hi Hj.
  - destruct (Rle_lt_dec (f (fst (argmin2 ny nx g)) (snd (argmin2 ny nx g))) (f i j)) as [L|L]; auto.
    apply H in L; auto. specialize (P i j Hi Hj). lra.
  - intros Hl. apply H; auto.
Qed.

(** a strict minimum is the argmin *)
Lemma argmin2_strict ny nx f y x : (0 <= y < ny)%Z -> (0 <= x < nx)%Z ->
  (forall i j, (0 <= i < ny)%Z -> (0 <= j < nx)%Z -> (i, j) <> (y, x) -> f y x < f i j) -> argmin2 ny nx f = (y, x).
Proof.
  intros Hy Hx H. apply (is_argmin2_unique ny nx f); [apply argmin2_spec; lia|]. split; [auto|]. split; [auto|]. split; cbn [fst snd].
  - intros i j Hi Hj. destruct (Z.eq_dec i y) as [->|N1]; [destruct (Z.eq_dec j x) as [->|N2]; [lra|]|]; left; apply H; auto; congruence.
  - intros i j Hi Hj Hl. apply H; auto. intros E. injection E as -> ->. lia.
Qed.

(** value of a.min() *)
Definition min2 (ny nx : Z) (f : Z -> Z -> R) : R := let p := argmin2 ny nx f in f (fst p) (snd p).

(** pixels in C order *)
Definition pixels (ny nx : Z) : list (Z * Z) := flat_map (fun y => map (fun x => (y, x)) (zrange nx)) (zrange ny).
Lemma pixels_In ny nx y x : In (y, x) (pixels ny nx) <-> (0 <= y < ny)%Z /\ (0 <= x < nx)%Z.
Proof.
  unfold pixels. rewrite in_flat_map. split.
  - intros [a [Ha H]]. apply in_map_iff in H. destruct H as [b [E Hb]]. injection E as -> ->. apply zrange_In in Ha, Hb. auto.
  - intros [Ha Hb]. exists y. split; [apply zrange_In; auto|]. apply in_map_iff. exists x. split; auto. apply zrange_In; auto.
Qed.

(** a.min() / a.max() of a list: ValueError when empty *)
Definition lmin (l : list R) : res R := match l with [] => Raise ValueError | x :: t => Ok (fold_left Rmin t x) end.
Definition lmax (l : list R) : res R := match l with [] => Raise ValueError | x :: t => Ok (fold_left Rmax t x) end.
Lemma fold_min_spec l : forall x, In (fold_left Rmin l x) (x :: l) /\ forall y, In y (x :: l) -> fold_left Rmin l x <= y.
Proof.
  induction l as [|a l IH]; intros x; simpl.
  - split; auto. intros y [->|[]]. lra.
  - destruct (IH (Rmin x a)) as [H1 H2]. split.
    + destruct H1 as [H1|H1]; [|auto]. rewrite <- H1. unfold Rmin. destruct (Rle_dec x a); auto.
    + assert (G := H2 (Rmin x a) ltac:(left; auto)). assert (M1 := Rmin_l x a). assert (M2 := Rmin_r x a).
      intros y [->|[->|Hy]]; [lra|lra|]. apply H2. right; auto.
Qed.
Lemma fold_max_spec l : forall x, In (fold_left Rmax l x) (x :: l) /\ forall y, In y (x :: l) -> y <= fold_left Rmax l x.
Proof.
  induction l as [|a l IH]; intros x; simpl.
  - split; auto. intros y [->|[]]. lra.
  - destruct (IH (Rmax x a)) as [H1 H2]. split.
    + destruct H1 as [H1|H1]; [|auto]. rewrite <- H1. unfold Rmax. destruct (Rle_dec x a); auto.
    + assert (G := H2 (Rmax x a) ltac:(left; auto)). assert (M1 := Rmax_l x a). assert (M2 := Rmax_r x a).
      intros y [->|[->|Hy]]; [lra|lra|]. apply H2. right; auto.
Qed.
Lemma lmin_ok l : l <> [] -> exists m, lmin l = Ok m /\ In m l /\ forall y, In y l -> m <= y.
Proof. destruct l as [|x t]; [congruence|]. intros _. eexists. split; [reflexivity|]. apply fold_min_spec. Qed.
Lemma lmax_ok l : l <> [] -> exists m, lmax l = Ok m /\ In m l /\ forall y, In y l -> y <= m.
Proof. destruct l as [|x t]; [congruence|]. intros _. eexists. split; [reflexivity|]. apply fold_max_spec. Qed.
Lemma lmin_nil_iff l : lmin l = Raise ValueError <-> l = [].
Proof. destruct l; simpl; split; intros; congruence. Qed.
