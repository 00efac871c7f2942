(** Proofs about the checks after a solve. *)
From Coq Require Import String ZArith Reals List Bool Lia Lra PeanoNat.
From Verif Require Import Base Ring Cplx Solvers Spec_solve Petsc Cache Logger Conv Spec_conv.
Import ListNotations.
Open Scope R_scope.

(** * The Euclidean norm *)
Lemma Cnorm2_nonneg : forall z, 0 <= Cnorm2 z.
Proof. intros [a b]. unfold Cnorm2, Re, Im. cbn. nra. Qed.

Lemma sumsq_nonneg : forall n x, 0 <= sumsq n x.
Proof. induction n as [|n IH]; intros x; cbn [sumsq]; [lra|]. pose proof (IH x). pose proof (Cnorm2_nonneg (x n)). lra. Qed.

Lemma sumsq_ext : forall n x y, (forall i, (i < n)%nat -> x i = y i) -> sumsq n x = sumsq n y.
Proof.
  induction n as [|n IH]; intros x y H; cbn [sumsq]; [reflexivity|]. rewrite (IH x y) by (intros; apply H; lia). rewrite (H n) by lia. reflexivity.
Qed.
Lemma euclid_ext : forall n x y, (forall i, (i < n)%nat -> x i = y i) -> euclid n x = euclid n y.
Proof. intros n x y H. unfold euclid. rewrite (sumsq_ext n x y H). reflexivity. Qed.

Lemma euclid_nonneg : forall n x, 0 <= euclid n x.
Proof. intros. apply sqrt_pos. Qed.
Lemma euclid_sq : forall n x, euclid n x * euclid n x = sumsq n x.
Proof. intros. apply sqrt_sqrt. apply sumsq_nonneg. Qed.

(** the real part of the inner product *)
Fixpoint dot (n : nat) (x y : nat -> C) : R :=
  match n with O => 0 | S m => dot m x y + (Re (x m) * Re (y m) + Im (x m) * Im (y m)) end.

Lemma cauchy : forall n x y, dot n x y * dot n x y <= sumsq n x * sumsq n y.
Proof.
  induction n as [|n IH]; intros x y; cbn [dot sumsq]; [lra|].
  pose proof (IH x y) as H. pose proof (sumsq_nonneg n x) as A. pose proof (sumsq_nonneg n y) as B. set (a := sumsq n x) in *. set (b := sumsq n y) in *. set (d := dot n x y) in *.
  destruct (x n) as [p q], (y n) as [r s]. unfold Cnorm2, Re, Im. cbn [fst snd].
  set (P := p * p + q * q). set (Q := r * r + s * s). set (e := p * r + q * s).
  assert (HP : 0 <= P) by (unfold P; nra). assert (HQ : 0 <= Q) by (unfold Q; nra).
  assert (He : e * e <= P * Q) by (unfold e, P, Q; pose proof (Rle_0_sqr (p * s - q * r)) as Z; unfold Rsqr in Z; nra).
  (* 2 d e <= a Q + b P *)
  assert (K : (2 * (d * e)) <= a * Q + b * P).
  { assert (S : (d * e) * (d * e) <= (a * Q) * (b * P)).
    { replace ((d * e) * (d * e)) with ((d * d) * (e * e)) by ring. replace (a * Q * (b * P)) with ((a * b) * (P * Q)) by ring.
      apply Rmult_le_compat; [|pose proof (Rle_0_sqr e); unfold Rsqr in *; lra|exact H|exact He]. pose proof (Rle_0_sqr d); unfold Rsqr in *; lra. }
    assert (U : 0 <= a * Q) by (apply Rmult_le_pos; assumption). assert (V : 0 <= b * P) by (apply Rmult_le_pos; assumption).
    set (u := a * Q) in *. set (v := b * P) in *. set (w := d * e) in *.
    pose proof (Rle_0_sqr (u - v)) as Z. unfold Rsqr in Z.
    assert ((2 * w) * (2 * w) <= (u + v) * (u + v)) by nra.
    destruct (Rle_lt_dec (2 * w) (u + v)) as [L|L]; [exact L|]. exfalso.
    assert ((u + v) * (u + v) < (2 * w) * (2 * w)) by nra. lra. }
  nra.
Qed.

Lemma sumsq_diff : forall n x y, sumsq n (diff x y) = sumsq n x + sumsq n y - 2 * dot n x y.
Proof.
  induction n as [|n IH]; intros x y; cbn [sumsq dot]; [ring|]. rewrite IH. unfold diff, Csub, Cnorm2, Re, Im. cbn [fst snd]. ring.
Qed.

Lemma triangle : forall n x y, euclid n (diff x y) <= euclid n x + euclid n y.
Proof.
  intros n x y. pose proof (euclid_nonneg n x) as A. pose proof (euclid_nonneg n y) as B. pose proof (euclid_nonneg n (diff x y)) as D.
  pose proof (euclid_sq n x) as X. pose proof (euclid_sq n y) as Y. pose proof (euclid_sq n (diff x y)) as Z. rewrite sumsq_diff in Z.
  pose proof (cauchy n x y) as CS. rewrite <- X, <- Y in CS.
  set (a := euclid n x) in *. set (b := euclid n y) in *. set (c := euclid n (diff x y)) in *. set (d := dot n x y) in *.
  assert (- d <= a * b).
  { destruct (Rle_lt_dec (- d) (a * b)) as [L|L]; [exact L|]. exfalso. assert (0 <= a * b) by nra. assert ((a * b) * (a * b) < (- d) * (- d)) by nra. nra. }
  destruct (Rle_lt_dec c (a + b)) as [L|L]; [exact L|]. exfalso. assert ((a + b) * (a + b) < c * c) by nra. nra.
Qed.

Lemma diff_sym : forall n x y, euclid n (diff x y) = euclid n (diff y x).
Proof.
  intros n x y. unfold euclid. f_equal. induction n as [|n IH]; cbn [sumsq]; [reflexivity|]. rewrite IH. f_equal. unfold diff, Csub, Cnorm2, Re, Im. cbn [fst snd]. ring.
Qed.

(** ‖y‖ <= ‖x‖ + ‖x - y‖ *)
Lemma triangle_r : forall n x y, euclid n y <= euclid n x + euclid n (diff x y).
Proof.
  intros n x y. pose proof (triangle n x (diff x y)) as T. rewrite (euclid_ext n _ y) in T; [exact T|].
  intros i _. unfold diff. apply Ceq; unfold Csub, Re, Im; cbn; ring.
Qed.

Lemma sumsq_entry : forall n x i, (i < n)%nat -> Cnorm2 (x i) <= sumsq n x.
Proof.
  induction n as [|n IH]; intros x i H; [lia|]. cbn [sumsq]. destruct (Nat.eq_dec i n) as [->|E].
  - pose proof (sumsq_nonneg n x). lra.
  - pose proof (IH x i ltac:(lia)). pose proof (Cnorm2_nonneg (x n)). lra.
Qed.
Lemma euclid_entry : forall n x i, (i < n)%nat -> Cabs (x i) <= euclid n x.
Proof. intros. unfold Cabs, euclid. apply sqrt_le_1_alt. apply sumsq_entry. assumption. Qed.

Lemma euclid_zero : forall n x, euclid n x = 0 -> forall i, (i < n)%nat -> x i = C0.
Proof.
  intros n x E i Hi. apply Cnorm2_0. pose proof (sumsq_entry n x i Hi) as S. pose proof (euclid_sq n x) as Q. rewrite E in Q.
  pose proof (Cnorm2_nonneg (x i)). lra.
Qed.

(** * The model on vectors without nan *)
Lemma norm_fold : forall n v x, (forall i, (i < n)%nat -> v i = Some (x i)) ->
  fold_right (lift2 Rplus) (Some 0) (map (fun i => option_map Cnorm2 (v i)) (seq 0 n)) = Some (sumsq n x).
Proof.
  induction n as [|n IH]; intros v x H; [reflexivity|].
  rewrite seq_S, map_app, fold_right_app. cbn [map fold_right Nat.add]. rewrite (H n) by lia. cbn [option_map lift2].
  assert (G : forall l a, fold_right (lift2 Rplus) (Some a) l = lift2 Rplus (fold_right (lift2 Rplus) (Some 0) l) (Some a)).
  { induction l as [|z l IHl]; intros a; cbn [fold_right]; [cbn; f_equal; ring|]. rewrite IHl. destruct z as [z|]; [|reflexivity].
    destruct (fold_right (lift2 Rplus) (Some 0) l) as [y|]; [|reflexivity]. cbn. f_equal. ring. }
  rewrite G. rewrite (IH v x) by (intros; apply H; lia). cbn [lift2 sumsq]. f_equal. ring.
Qed.

Lemma norm_some : forall n v x, (forall i, (i < n)%nat -> v i = Some (x i)) -> norm n v = Some (euclid n x).
Proof. intros n v x H. unfold norm. rewrite (norm_fold n v x H). reflexivity. Qed.

Lemma norm_none : forall n v i, (i < n)%nat -> v i = None -> norm n v = None.
Proof.
  intros n v i Hi H. unfold norm. assert (In i (seq 0 n)) as I by (apply in_seq; lia). revert I. generalize (seq 0 n). induction l as [|j l IH]; [contradiction|].
  intros [->|I]; cbn [map fold_right].
  - rewrite H. reflexivity.
  - specialize (IH I). destruct (fold_right (lift2 Rplus) (Some 0) (map (fun i0 => option_map Cnorm2 (v i0)) l)); [discriminate|].
    destruct (option_map Cnorm2 (v j)); reflexivity.
Qed.

Lemma mat_vec_some : forall n tr v x, (forall p, In p tr -> (snd (fst p) < n)%nat) -> (forall i, (i < n)%nat -> v i = Some (x i)) ->
  forall i, mat_vec tr v i = Some (@mv CR tr x i).
Proof.
  intros n tr v x B H i. unfold mat_vec, mv. induction tr as [|p tr IH]; [reflexivity|].
  specialize (IH (fun q Hq => B q (or_intror Hq))). pose proof (B p (or_introl eq_refl)) as Bp. destruct p as [[r c] a]. cbn [fst snd] in Bp.
  cbn [fold_right filter fst snd]. destruct (Nat.eqb r i); cbn [map fst snd].
  - etransitivity; [apply (f_equal (lift2 Cadd _) IH)|]. rewrite (H c Bp). reflexivity.
  - exact IH.
Qed.

Lemma mv_sub : forall tr x y i, @mv CR tr (diff x y) i = Csub (@mv CR tr x i) (@mv CR tr y i).
Proof.
  intros tr x y i. unfold mv. induction (filter (fun p => Nat.eqb (fst (fst p)) i) tr) as [|p l IH]; cbn [map ksum fold_right].
  - apply Ceq; cbn; ring.
  - unfold ksum in *. cbn [fold_right]. rewrite IH. unfold diff. apply Ceq; cbn; ring.
Qed.

Lemma excess_value : forall n tr f P b x v rtol, (forall p, In p tr -> (snd (fst p) < n)%nat) -> acts_as n f P ->
  (forall i, (i < n)%nat -> v i = Some (x i)) ->
  tol_excess f n tr (some b) v rtol = Some (euclid n (P (diff b (@mv CR tr x))) - rtol * euclid n (P b)).
Proof.
  intros n tr f P b x v rtol B A H. unfold tol_excess.
  rewrite (norm_some n (f (minus (some b) (mat_vec tr v))) (P (diff b (@mv CR tr x)))).
  - rewrite (norm_some n (f (some b)) (P b)); [reflexivity|]. apply A. reflexivity.
  - apply A. intros i Hi. unfold minus, some. rewrite (mat_vec_some n tr v x B H i). reflexivity.
Qed.

(** * Accuracy *)
Lemma accuracy : forall n tr P delta b x xs rtol, inverts n tr delta P -> delta < 1 -> 0 <= rtol ->
  (forall i, (i < n)%nat -> @mv CR tr xs i = b i) ->
  euclid n (P (diff b (@mv CR tr x))) - rtol * euclid n (P b) <= 0 ->
  (1 - delta) * euclid n (diff x xs) <= rtol * (1 + delta) * euclid n xs.
Proof.
  intros n tr P delta b x xs rtol [E V] D RT S H.
  assert (E1 : euclid n (P (diff b (@mv CR tr x))) = euclid n (P (@mv CR tr (diff xs x)))).
  { apply euclid_ext. apply E. intros i Hi. rewrite mv_sub. unfold diff. rewrite (S i Hi). reflexivity. }
  assert (E2 : euclid n (P b) = euclid n (P (@mv CR tr xs))).
  { apply euclid_ext. apply E. intros i Hi. rewrite (S i Hi). reflexivity. }
  rewrite E1, E2 in H. pose proof (V (diff xs x)) as V1. pose proof (V xs) as V2.
  pose proof (triangle_r n (P (@mv CR tr (diff xs x))) (diff xs x)) as T1.
  pose proof (triangle_r n xs (P (@mv CR tr xs))) as T2. rewrite (diff_sym n xs) in T2.
  rewrite (diff_sym n x xs). nra.
Qed.

Lemma sumsq_C0 : forall n, sumsq n (fun _ => C0) = 0.
Proof. induction n as [|n IH]; cbn [sumsq]; [reflexivity|]. rewrite IH. unfold Cnorm2, C0, Re, Im. cbn [fst snd]. ring. Qed.

Lemma exact_excess : forall n tr P b xs rtol, inverts n tr 0 P -> (forall i, (i < n)%nat -> @mv CR tr xs i = b i) ->
  (forall i, (i < n)%nat -> P b i = xs i) /\
  ((forall p, In p tr -> (snd (fst p) < n)%nat) -> euclid n (P (diff b (@mv CR tr (P b)))) - rtol * euclid n (P b) = - (rtol * euclid n xs)).
Proof.
  intros n tr P b xs rtol [E V] S.
  assert (I : forall y i, (i < n)%nat -> P (@mv CR tr y) i = y i).
  { intros y i Hi. pose proof (V y) as Z. rewrite Rmult_0_l in Z. pose proof (euclid_nonneg n (diff (P (@mv CR tr y)) y)) as NN.
    pose proof (euclid_zero n _ (Rle_antisym _ _ Z NN) i Hi) as D. unfold diff in D. change (car CR) with C in *.
    remember (P (@mv CR tr y) i) as p eqn:Ep. clear Ep. destruct p as [p q], (y i) as [r s]. unfold Csub, C0, Re, Im in D. cbn in D. injection D as D1 D2. f_equal; lra. }
  assert (PB : forall i, (i < n)%nat -> P b i = xs i).
  { intros i Hi. rewrite (E b (@mv CR tr xs)); [apply I; exact Hi|intros j Hj; symmetry; apply S; exact Hj|exact Hi]. }
  split; [exact PB|]. intros B.
  assert (Z : forall i, (i < n)%nat -> diff b (@mv CR tr (P b)) i = @mv CR tr (fun _ => C0) i).
  { intros i Hi. unfold diff. rewrite <- (S i Hi).
    replace (@mv CR tr (P b) i) with (@mv CR tr xs i).
    2:{ unfold mv. f_equal. apply map_ext_in. intros p Hp. apply filter_In in Hp. rewrite PB by (apply B; apply Hp). reflexivity. }
    assert (Q : @mv CR tr (fun _ => C0) i = C0).
    { unfold mv. induction (filter (fun p => Nat.eqb (fst (fst p)) i) tr) as [|p l IH]; [reflexivity|]. unfold ksum in *. cbn [map fold_right]. rewrite IH. apply Ceq; cbn; ring. }
    rewrite Q. apply Ceq; unfold Csub, C0, Re, Im; cbn; ring. }
  rewrite (euclid_ext n (P (diff b (@mv CR tr (P b)))) (fun _ => C0)).
  2:{ intros i Hi. rewrite (E _ (@mv CR tr (fun _ => C0)) Z i Hi). apply I. exact Hi. }
  rewrite (euclid_ext n (P b) xs PB).
  replace (euclid n (fun _ => C0)) with 0; [ring|].
  unfold euclid. rewrite sumsq_C0. symmetry. apply sqrt_0.
Qed.
