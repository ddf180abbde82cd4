(** Lemmas about the memory model *)
From Coq Require Import ZArith Lia List Reals Lra Bool FunctionalExtensionality.
From Coquelicot Require Import Complex.
From Verif Require Import Base NDim DFT Kernel Num Py M_fast_ffts M_shift M_convolve M_correlate M_chi2 M_register M_xcorr M_heap Spec8.
Import ListNotations.
Open Scope R_scope.

Lemma mbind_ok {A B} (c : M A) (f : A -> M B) m x m' : c m = (Ok x, m') -> mbind c f m = f x m'.
Proof. intros H. unfold mbind. rewrite H. reflexivity. Qed.
Lemma mbind_raise {A B} (c : M A) (f : A -> M B) m e m' : c m = (Raise e, m') -> mbind c f m = (Raise e, m').
Proof. intros H. unfold mbind. rewrite H. reflexivity. Qed.
Lemma loadR_ok m l a : holds m l (BReal a) -> loadR l m = (Ok a, m).
Proof. intros H. unfold loadR, mbind, load. rewrite H. reflexivity. Qed.
Lemma loadC_ok m l a : holds m l (BCplx a) -> loadC l m = (Ok a, m).
Proof. intros H. unfold loadC, mbind, load. rewrite H. reflexivity. Qed.
Lemma holds_app m t l b : holds m l b -> holds (m ++ t) l b.
Proof. unfold holds. intros H. rewrite nth_error_app1; auto. apply nth_error_Some. congruence. Qed.
Lemma holds_new m b : holds (m ++ [b]) (length m) b.
Proof. unfold holds. rewrite nth_error_app2, Nat.sub_diag by lia. reflexivity. Qed.
Lemma unchanged_refl m : unchanged m m.  Proof. intros l b H; auto. Qed.
Lemma unchanged_app m t : unchanged m (m ++ t).  Proof. intros l b H. apply holds_app; auto. Qed.
Lemma unchanged_trans m m' m'' : unchanged m m' -> unchanged m' m'' -> unchanged m m''.
Proof. intros H1 H2 l b H. auto. Qed.
Lemma holds_lt m l b : holds m l b -> (l < length m)%nat.
Proof. unfold holds. intros H. apply nth_error_Some. congruence. Qed.

Lemma set_nth_length l b m : length (set_nth l b m) = length m.
Proof.
  unfold set_nth. rewrite app_length. assert (H := firstn_length l m). assert (K := skipn_length l m). destruct (skipn l m); simpl in *; lia.
Qed.
Lemma set_nth_same l b m : (l < length m)%nat -> holds (set_nth l b m) l b.
Proof.
  intros H. unfold holds, set_nth. assert (F : length (firstn l m) = l) by (rewrite firstn_length; lia).
  rewrite nth_error_app2 by lia. rewrite F, Nat.sub_diag. assert (K := skipn_length l m). destruct (skipn l m); [simpl in K; lia|reflexivity].
Qed.
Lemma set_nth_other l l' b m : l <> l' -> nth_error (set_nth l b m) l' = nth_error m l'.
Proof.
  revert l l'. unfold set_nth. induction m as [|x m IH]; intros l l' H; [destruct l; simpl; destruct l'; reflexivity|].
  destruct l as [|l]; destruct l' as [|l']; simpl; try congruence; try reflexivity. apply IH. congruence.
Qed.
Lemma set_nth_holds l b b' l' m : l <> l' -> holds m l' b' -> holds (set_nth l b m) l' b'.
Proof. intros H1 H2. unfold holds. rewrite set_nth_other; auto. Qed.
(** writing to something allocated later leaves an earlier memory unchanged *)
Lemma unchanged_store m m' l b : unchanged m m' -> (length m <= l)%nat -> unchanged m (set_nth l b m').
Proof. intros H Hl l' b' H'. apply set_nth_holds; [|auto]. apply holds_lt in H'. lia. Qed.

Lemma put_atR m l a mask v : holds m l (BReal a) -> put_at l mask v m = (Ok tt, set_nth l (BReal (put a mask v)) m).
Proof. intros H. unfold put_at. rewrite (mbind_ok _ _ _ _ _ (loadR_ok _ _ _ H)). reflexivity. Qed.
Lemma put_atC_ok m l a mask v : holds m l (BCplx a) -> put_atC l mask v m = (Ok tt, set_nth l (BCplx (put a mask v)) m).
Proof. intros H. unfold put_atC. rewrite (mbind_ok _ _ _ _ _ (loadC_ok _ _ _ H)). reflexivity. Qed.

(** [fresh m m' l]: l was allocated between m and m' *)
Definition fresh (m : mem) (l : loc) : Prop := (length m <= l)%nat.

Lemma subtract_mean_ok m l a : holds m l (BReal a) -> subtract_mean l m = (Ok (length m), m ++ [BReal (zero_mean true a)]).
Proof. intros H. unfold subtract_mean. rewrite (mbind_ok _ _ _ _ _ (loadR_ok _ _ _ H)). reflexivity. Qed.
Lemma nan_to_num_ok m l a : holds m l (BReal a) -> nan_to_num l m = (Ok (length m), m ++ [BReal (amap (fun x => Fin (nan0 x)) a)]).
Proof. intros H. unfold nan_to_num. rewrite (mbind_ok _ _ _ _ _ (loadR_ok _ _ _ H)). reflexivity. Qed.

(** optional mean subtraction: some location holding zero_mean z a, memory extended *)
Lemma maybe_mean (z : bool) m l a : holds m l (BReal a) ->
  exists l' m', (if z then subtract_mean l else ret l) m = (Ok l', m') /\ unchanged m m' /\ holds m' l' (BReal (zero_mean z a)).
Proof.
  intros H. destruct z.
  - exists (length m), (m ++ [BReal (zero_mean true a)]). split; [apply subtract_mean_ok; auto|]. split; [apply unchanged_app|apply holds_new].
  - exists l, m. split; [reflexivity|]. split; [apply unchanged_refl|auto].
Qed.
Lemma nan_to_num_step m l a : holds m l (BReal a) ->
  exists m', nan_to_num l m = (Ok (length m), m') /\ unchanged m m' /\ holds m' (length m) (BReal (amap (fun x => Fin (nan0 x)) a)) /\ length m' = S (length m).
Proof.
  intros H. eexists. split; [apply nan_to_num_ok; eauto|]. split; [apply unchanged_app|]. split; [apply holds_new|]. rewrite app_length. simpl. lia.
Qed.
Lemma replace_nan_step m l a : holds m l (BReal a) ->
  exists l' m' a', replace_nan l m = (Ok l', m') /\ unchanged m m' /\ holds m' l' (BReal a') /\ shape a' = shape a /\ (forall i, nan0 (get a' i) = nan0 (get a i)) /\
    (forall i, inb (shape a) i -> get a' i <> NaN).
Proof.
  intros H. unfold replace_nan. rewrite (mbind_ok _ _ _ _ _ (loadR_ok _ _ _ H)). destruct (any isnan a) eqn:E.
  - assert (C : copy l m = (Ok (length m), m ++ [BReal a])) by (unfold copy; rewrite (mbind_ok _ _ _ _ _ (loadR_ok _ _ _ H)); reflexivity).
    rewrite (mbind_ok _ _ _ _ _ C). assert (N := holds_new m (BReal a)). rewrite (mbind_ok _ _ _ _ _ (loadR_ok _ _ _ N)).
    rewrite (mbind_ok _ _ _ _ _ (put_atR _ _ _ _ _ N)). eexists _, _, _. split; [reflexivity|]. split; [apply unchanged_store; [apply unchanged_app|lia]|].
    split; [apply set_nth_same; rewrite app_length; simpl; lia|]. split; [reflexivity|]. split; intros i; [|intros _]; cbn [put get]; destruct (get a i); simpl; congruence.
  - exists l, m, a. split; [reflexivity|]. split; [apply unchanged_refl|]. split; [auto|]. split; [auto|]. split; [auto|].
    intros i Hi HN. assert (F := existsN_false _ _ E i Hi). cbv beta in F. rewrite HN in F. discriminate.
Qed.
