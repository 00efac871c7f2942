(** Gaussian elimination: the assumptions [spsolve_ok] and [lsolve_ok] made of
    the linear algebra library can be met, over every field with decidable
    equality. *)
From Coq Require Import String ZArith List Bool Lia Ring.
From Verif Require Import Base Ring Coef Solvers Spec_eom Spec_solve Sparse_proofs.
Import ListNotations.
Open Scope list_scope.

Section Gauss.
Context {F : cfield}.
Add Ring KRg : (klaws F).
Variable kdec : forall x y : F, {x = y} + {x <> y}.

Definition sum_to (n : nat) (f : nat -> F) : F := ksum (map f (seq 0 n)).

Fixpoint find_piv (A : nat -> nat -> F) (n : nat) : option nat :=
  match n with
  | O => None
  | S m => if kdec (A m 0%nat) k0 then find_piv A m else Some m
  end.

Definition swap (p i : nat) : nat := if Nat.eqb i p then 0%nat else if Nat.eqb i 0 then p else i.

Fixpoint gauss (n : nat) (A : nat -> nat -> F) (b : nat -> F) : nat -> F :=
  match n with
  | O => fun _ => k0
  | S m =>
    match find_piv A n with
    | None => fun _ => k0
    | Some p =>
      let A' i j := A (swap p i) j in
      let b' i := b (swap p i) in
      let r i := kmul (A' (S i) 0%nat) (kinv (A' 0%nat 0%nat)) in
      let y := gauss m (fun i j => ksub (A' (S i) (S j)) (kmul (r i) (A' 0%nat (S j))))
                     (fun i => ksub (b' (S i)) (kmul (r i) (b' 0%nat))) in
      fun j => match j with
               | O => kmul (kinv (A' 0%nat 0%nat)) (ksub (b' 0%nat) (sum_to m (fun j => kmul (A' 0%nat (S j)) (y j))))
               | S j' => y j'
               end
    end
  end.

Definition inj (n : nat) (A : nat -> nat -> F) : Prop :=
  forall x, (forall i, (i < n)%nat -> sum_to n (fun j => kmul (A i j) (x j)) = k0) -> forall j, (j < n)%nat -> x j = k0.

Lemma sum_S : forall n f, sum_to (S n) f = kadd (f 0%nat) (sum_to n (fun j => f (S j))).
Proof. intros. unfold sum_to. cbn [seq map]. rewrite ksum_cons, <- seq_shift, map_map. reflexivity. Qed.

Lemma find_piv_some : forall A n p, find_piv A n = Some p -> (p < n)%nat /\ A p 0%nat <> k0.
Proof.
  intros A n p. induction n as [|n IH]; cbn [find_piv]; [discriminate|]. destruct (kdec (A n 0%nat) k0); intros H.
  - apply IH in H. split; [lia|apply H].
  - injection H as <-. split; [lia|assumption].
Qed.

Lemma find_piv_none : forall A n, find_piv A n = None -> forall i, (i < n)%nat -> A i 0%nat = k0.
Proof.
  intros A n. induction n as [|n IH]; cbn [find_piv]; intros H i Hi; [lia|]. destruct (kdec (A n 0%nat) k0); [|discriminate].
  destruct (Nat.eq_dec i n) as [->|]; [assumption|]. apply IH; [exact H|lia].
Qed.

Lemma swap_lt : forall p i n, (p < n)%nat -> (i < n)%nat -> (swap p i < n)%nat.
Proof. intros. unfold swap. destruct (Nat.eqb i p); [lia|]. destruct (Nat.eqb_spec i 0); lia. Qed.

Lemma swap_inv : forall p i, swap p (swap p i) = i.
Proof.
  intros p i. unfold swap. destruct (Nat.eqb_spec i p) as [->|N1].
  - destruct (Nat.eqb_spec 0 p) as [E|N]; [congruence|]. reflexivity.
  - destruct (Nat.eqb_spec i 0) as [->|N2]; [rewrite Nat.eqb_refl; reflexivity|].
    destruct (Nat.eqb_spec i p); [contradiction|]. destruct (Nat.eqb_spec i 0); [contradiction|reflexivity].
Qed.

Lemma sum_lin : forall n (f g : nat -> F) c, sum_to n (fun j => ksub (f j) (kmul c (g j))) = ksub (sum_to n f) (kmul c (sum_to n g)).
Proof.
  intros. unfold sum_to. rewrite <- ksum_scal. induction (seq 0 n) as [|a l IH]; cbn [map]; [simpl; ring|]. rewrite !ksum_cons, IH. ring.
Qed.

Lemma gauss_ok : forall n A b, inj n A -> forall i, (i < n)%nat -> sum_to n (fun j => kmul (A i j) (gauss n A b j)) = b i.
Proof.
  induction n as [|m IH]; intros A b I i Hi; [lia|]. cbn [gauss]. destruct (find_piv A (S m)) as [p|] eqn:E.
  2:{ exfalso. apply (k1_neq_k0 F). apply (I (fun j => if Nat.eqb j 0 then k1 else k0)) with (j := 0%nat); [|lia].
      intros k Hk. rewrite sum_S. cbn [Nat.eqb]. rewrite (find_piv_none A _ E k Hk). unfold sum_to. rewrite ksum_zero; [ring|intros; ring]. }
  apply find_piv_some in E. destruct E as [Hp NZ].
  set (A' := fun i j => A (swap p i) j). set (b' := fun i => b (swap p i)).
  set (r := fun i => kmul (A' (S i) 0%nat) (kinv (A' 0%nat 0%nat))).
  set (A2 := fun i j => ksub (A' (S i) (S j)) (kmul (r i) (A' 0%nat (S j)))).
  set (b2 := fun i => ksub (b' (S i)) (kmul (r i) (b' 0%nat))).
  assert (NZ' : A' 0%nat 0%nat <> k0).
  { unfold A', swap. destruct (Nat.eqb_spec 0 p) as [<-|]; [exact NZ|]. exact NZ. }
  assert (I2 : inj m A2).
  { intros y Hy j Hj.
    set (x := fun j => match j with O => kopp (kmul (kinv (A' 0%nat 0%nat)) (sum_to m (fun j => kmul (A' 0%nat (S j)) (y j)))) | S j' => y j' end).
    assert (X : forall k, (k < S m)%nat -> sum_to (S m) (fun j => kmul (A' k j) (x j)) = k0).
    { intros k Hk. rewrite sum_S. cbn [x]. destruct k as [|k].
      - set (S0 := sum_to m _). transitivity (ksub S0 (kmul (kmul (kinv (A' 0%nat 0%nat)) (A' 0%nat 0%nat)) S0)); [ring|].
        rewrite kinv_l by exact NZ'. ring.
      - pose proof (Hy k ltac:(lia)) as H. unfold A2 in H.
        assert (H' : sum_to m (fun j => ksub (kmul (A' (S k) (S j)) (y j)) (kmul (r k) (kmul (A' 0%nat (S j)) (y j)))) = k0).
        { rewrite <- H. unfold sum_to. apply ksum_ext. intros; ring. }
        rewrite sum_lin in H'. rewrite <- H'. unfold r. ring. }
    apply (I x) with (j := S j); [|lia]. intros k Hk. rewrite <- (X (swap p k)) by (apply swap_lt; lia).
    unfold A'. rewrite swap_inv. reflexivity. }
  pose proof (IH A2 b2 I2) as Y. set (y := gauss m A2 b2) in *.
  set (x := fun j => match j with O => kmul (kinv (A' 0%nat 0%nat)) (ksub (b' 0%nat) (sum_to m (fun j => kmul (A' 0%nat (S j)) (y j)))) | S j' => y j' end).
  assert (X : forall k, (k < S m)%nat -> sum_to (S m) (fun j => kmul (A' k j) (x j)) = b' k).
  { intros k Hk. rewrite sum_S. cbn [x]. destruct k as [|k].
    - set (S0 := sum_to m _). transitivity (kadd (kmul (kmul (kinv (A' 0%nat 0%nat)) (A' 0%nat 0%nat)) (ksub (b' 0%nat) S0)) S0); [ring|].
      rewrite kinv_l by exact NZ'. ring.
    - pose proof (Y k ltac:(lia)) as H. unfold A2, b2 in H.
      assert (H' : sum_to m (fun j => ksub (kmul (A' (S k) (S j)) (y j)) (kmul (r k) (kmul (A' 0%nat (S j)) (y j)))) = ksub (b' (S k)) (kmul (r k) (b' 0%nat))).
      { rewrite <- H. unfold sum_to. apply ksum_ext. intros; ring. }
      rewrite sum_lin in H'. transitivity (kadd (ksub (sum_to m (fun j => kmul (A' (S k) (S j)) (y j))) (kmul (r k) (sum_to m (fun j => kmul (A' 0%nat (S j)) (y j))))) (kmul (r k) (b' 0%nat))).
      + unfold r. ring.
      + rewrite H'. ring. }
  pose proof (X (swap p i) ltac:(apply swap_lt; lia)) as R. unfold A', b' in R. rewrite swap_inv in R. exact R.
Qed.

(** The two library routines. *)
Definition gauss_sparse (X v : coo F) (j : nat) : F :=
  if Nat.ltb j (c_rows X) then gauss (c_rows X) (entry (c_ent X)) (fun i => entry (c_ent v) i 0) j else k0.

Definition gauss_dense (X B : mat F) (i c : nat) : F := gauss (d_rows X) (d_at X) (fun i => d_at B i c) i.

Lemma mv_entry : forall (tr : list (@triplet F)) x n i, (forall j, (n <= j)%nat -> x j = k0) ->
  mv tr x i = sum_to n (fun j => kmul (entry tr i j) (x j)).
Proof.
  intros tr x n i H. unfold mv, entry, sum_to. induction tr as [|p r IH]; cbn [filter].
  - cbn [map]. rewrite ksum_zero; [reflexivity|]. intros; simpl; ring.
  - destruct (Nat.eqb (fst (fst p)) i); cbn [andb]; [|exact IH]. cbn [map]. rewrite ksum_cons, IH.
    transitivity (ksum (map (fun j => kadd (if Nat.eqb j (snd (fst p)) then kmul (snd p) (x j) else k0)
       (kmul (ksum (map snd (filter (fun p0 : nat * nat * F => (Nat.eqb (fst (fst p0)) i && Nat.eqb (snd (fst p0)) j)%bool) r))) (x j))) (seq 0 n))).
    + rewrite ksum_add. f_equal. destruct (Nat.lt_ge_cases (snd (fst p)) n) as [L|L].
      * symmetry. apply (ksum_pick (fun j => kmul (snd p) (x j))). lia.
      * rewrite H by exact L. rewrite ksum_zero; [ring|]. intros j Hj. apply in_seq in Hj. destruct (Nat.eqb_spec j (snd (fst p))); [lia|reflexivity].
    + apply ksum_ext. intros j _. rewrite Nat.eqb_sym. destruct (Nat.eqb (snd (fst p)) j); [cbn [map]; rewrite ksum_cons|]; ring.
Qed.

Theorem gauss_spsolve_ok : spsolve_ok gauss_sparse.
Proof.
  intros X v SQ _ NS i Hi. rewrite (mv_entry _ _ (c_rows X)).
  - rewrite <- (gauss_ok (c_rows X) (entry (c_ent X)) (fun i => entry (c_ent v) i 0)) with (i := i); [|clear i Hi|exact Hi].
    + unfold sum_to. apply ksum_ext. intros j Hj. apply in_seq in Hj. unfold gauss_sparse. rewrite (proj2 (Nat.ltb_lt j (c_rows X))) by lia. reflexivity.
    + intros x Hx j Hj. set (x' := fun j => if Nat.ltb j (c_rows X) then x j else k0).
      assert (Z : x' j = k0); [|unfold x' in Z; rewrite (proj2 (Nat.ltb_lt j (c_rows X)) Hj) in Z; exact Z].
      apply NS; [|congruence]. intros i Hi. rewrite (mv_entry _ _ (c_rows X)), <- (Hx i Hi).
      * unfold sum_to. apply ksum_ext. intros l Hl. apply in_seq in Hl. unfold x'. rewrite (proj2 (Nat.ltb_lt l (c_rows X))) by lia. reflexivity.
      * intros l Hl. unfold x'. rewrite (proj2 (Nat.ltb_ge l (c_rows X)) Hl). reflexivity.
  - intros j Hj. unfold gauss_sparse. rewrite (proj2 (Nat.ltb_ge j (c_rows X)) Hj). reflexivity.
Qed.

Theorem gauss_lsolve_ok : lsolve_ok gauss_dense.
Proof.
  intros X B SQ _ NS i c Hi Hc. unfold dmv, gauss_dense. rewrite <- SQ.
  apply (gauss_ok (d_rows X) (d_at X) (fun i => d_at B i c)); [|exact Hi].
  intros x Hx j Hj. apply NS; [|congruence]. intros k Hk. unfold dmv. rewrite <- SQ. apply (Hx k Hk).
Qed.
End Gauss.

(** A left inverse shows that a matrix is nonsingular. *)
Section Inverse.
Context {F : cfield}.
Add Ring KRi : (klaws F).
Variable keqb : F -> F -> bool.
Hypothesis keqb_ok : forall x y, keqb x y = true -> x = y.

Definition check_inverse (n : nat) (A L : nat -> nat -> F) : bool :=
  forallb (fun i => forallb (fun j => keqb (sum_to n (fun l => kmul (L i l) (A l j))) (if Nat.eqb j i then k1 else k0)) (seq 0 n)) (seq 0 n).

Lemma inverse_inj : forall n A L, check_inverse n A L = true -> inj n A.
Proof.
  intros n A L H x Hx i Hi. unfold check_inverse in H. rewrite forallb_forall in H.
  specialize (H i ltac:(apply in_seq; lia)). rewrite forallb_forall in H.
  transitivity (sum_to n (fun j => kmul (sum_to n (fun l => kmul (L i l) (A l j))) (x j))).
  - unfold sum_to. rewrite (ksum_ext _ (fun j => if Nat.eqb j i then x j else k0)).
    + symmetry. apply (ksum_pick x). lia.
    + intros j Hj. apply H in Hj. apply keqb_ok in Hj. unfold sum_to in Hj. rewrite Hj. destruct (Nat.eqb j i); ring.
  - unfold sum_to. rewrite (ksum_ext _ (fun j => ksum (map (fun l => kmul (kmul (L i l) (A l j)) (x j)) (seq 0 n)))) by (intros; symmetry; apply ksum_scal_r).
    rewrite ksum_swap. apply ksum_zero. intros l Hl. apply in_seq in Hl.
    rewrite (ksum_ext _ (fun j => kmul (L i l) (kmul (A l j) (x j)))) by (intros; ring). rewrite ksum_scal.
    specialize (Hx l ltac:(lia)). unfold sum_to in Hx. rewrite Hx. ring.
Qed.

Definition check_sparse (X : coo F) (L : nat -> nat -> F) : bool :=
  Nat.eqb (c_rows X) (c_cols X) && forallb (fun p => Nat.ltb (snd (fst p)) (c_rows X)) (c_ent X) && check_inverse (c_rows X) (entry (c_ent X)) L.

Lemma check_sparse_ok : forall X L, check_sparse X L = true -> nonsingular X.
Proof.
  intros X L H x Hx i Hi. unfold check_sparse in H. rewrite !andb_true_iff in H. destruct H as [[SQ R] C]. apply Nat.eqb_eq in SQ.
  rewrite forallb_forall in R. rewrite <- SQ in Hi. set (x' := fun j => if Nat.ltb j (c_rows X) then x j else k0).
  assert (Z : x' i = k0); [|unfold x' in Z; rewrite (proj2 (Nat.ltb_lt i (c_rows X)) Hi) in Z; exact Z].
  apply (inverse_inj _ _ _ C x'); [|exact Hi]. intros k Hk. rewrite <- (mv_entry (c_ent X) x' (c_rows X)), <- (Hx k Hk).
  - unfold mv. apply ksum_ext. intros p Hp. apply filter_In in Hp. destruct Hp as [Hp _]. apply R in Hp.
    unfold x'. rewrite Hp. reflexivity.
  - intros j Hj. unfold x'. rewrite (proj2 (Nat.ltb_ge j (c_rows X)) Hj). reflexivity.
Qed.

(** The same check on the entries, column by column. *)
Lemma by_key : forall (key : @triplet F -> nat) (g : @triplet F -> F) n tr, (forall p, In p tr -> (key p < n)%nat) ->
  ksum (map g tr) = ksum (map (fun j => ksum (map g (filter (fun p => Nat.eqb (key p) j) tr))) (seq 0 n)).
Proof.
  intros key g n. induction tr as [|p r IH]; intros H; cbn [map filter].
  - symmetry. apply ksum_zero. reflexivity.
  - rewrite ksum_cons, IH by (intros; apply H; right; assumption). rewrite <- (ksum_pick (fun _ => g p) n 0 (key p)); [|pose proof (H p (or_introl eq_refl)); lia].
    rewrite <- ksum_add. apply ksum_ext. intros j _. rewrite (Nat.eqb_sym j). destruct (Nat.eqb (key p) j); cbn [map]; [rewrite ksum_cons; reflexivity|ring].
Qed.

Definition check_left (X : coo F) (L : nat -> nat -> F) : bool :=
  Nat.eqb (c_rows X) (c_cols X) &&
  forallb (fun p => Nat.ltb (fst (fst p)) (c_rows X) && Nat.ltb (snd (fst p)) (c_rows X)) (c_ent X) &&
  forallb (fun j => let cj := filter (fun p => Nat.eqb (snd (fst p)) j) (c_ent X) in
    forallb (fun i => keqb (ksum (map (fun p => kmul (L i (fst (fst p))) (snd p)) cj)) (if Nat.eqb j i then k1 else k0)) (seq 0 (c_rows X))) (seq 0 (c_rows X)).

Lemma check_left_ok : forall X L, check_left X L = true -> nonsingular X.
Proof.
  intros X L H x Hx i Hi. unfold check_left in H. rewrite !andb_true_iff in H. destruct H as [[SQ R] C]. apply Nat.eqb_eq in SQ.
  rewrite forallb_forall in R, C. rewrite <- SQ in Hi. set (n := c_rows X) in *. set (tr := c_ent X) in *.
  assert (B : forall p, In p tr -> (fst (fst p) < n)%nat /\ (snd (fst p) < n)%nat).
  { intros p Hp. apply R in Hp. apply andb_true_iff in Hp. destruct Hp as [H1 H2]. apply Nat.ltb_lt in H1, H2. auto. }
  transitivity (ksum (map (fun p : nat * nat * F => kmul (L i (fst (fst p))) (kmul (snd p) (x (snd (fst p))))) tr)).
  - rewrite (by_key (fun p => snd (fst p)) _ n) by (intros p Hp; apply B; exact Hp).
    rewrite <- (ksum_pick x n 0 i) by lia. apply ksum_ext. intros j Hj. specialize (C j Hj). cbv zeta in C. rewrite forallb_forall in C.
    specialize (C i ltac:(apply in_seq; lia)). apply keqb_ok in C.
    transitivity (kmul (ksum (map (fun p : nat * nat * F => kmul (L i (fst (fst p))) (snd p)) (filter (fun p => Nat.eqb (snd (fst p)) j) tr))) (x j)).
    + rewrite C. destruct (Nat.eqb j i); ring.
    + rewrite <- ksum_scal_r. apply ksum_ext. intros p Hp. apply filter_In in Hp. destruct Hp as [_ Hp]. apply Nat.eqb_eq in Hp. rewrite Hp. ring.
  - rewrite (by_key (fun p => fst (fst p)) _ n) by (intros p Hp; apply B; exact Hp). apply ksum_zero. intros a Ha. apply in_seq in Ha.
    transitivity (kmul (L i a) (mv tr x a)); [|rewrite (Hx a ltac:(lia)); ring]. unfold mv. rewrite <- ksum_scal. apply ksum_ext.
    intros p Hp. apply filter_In in Hp. destruct Hp as [_ Hp]. apply Nat.eqb_eq in Hp. rewrite Hp. reflexivity.
Qed.

(** Likewise for a solution. *)
Definition check_solves (X v : coo F) (x : nat -> F) : bool :=
  forallb (fun i => keqb (mv (c_ent X) x i) (entry (c_ent v) i 0)) (seq 0 (c_rows X)).
Lemma check_solves_ok : forall X v x, check_solves X v x = true -> solves X v x.
Proof. intros X v x H i Hi. unfold check_solves in H. rewrite forallb_forall in H. apply keqb_ok. apply H. apply in_seq. lia. Qed.
End Inverse.
