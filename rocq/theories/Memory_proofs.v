(** Proofs about sparse matrices in memory (C88). *)
From Coq Require Import String ZArith QArith List Bool Lia Ring.
From Verif Require Import Base NdArray Config Ring Coef Solvers Spec_solve Render Keys Memory Spec_memory.
From Verif Require Render_proofs Keys_proofs Sparse_proofs.
Import ListNotations.
Open Scope list_scope.

Section Csr.
Context {K : cring}.
Add Ring KRmem : (klaws K).
Definition pick (j : nat) (d : list (nat * K)) : K := ksum (map snd (filter (fun p => Nat.eqb (fst p) j) d)).

Lemma pick_cons : forall j a (c : K) d, pick j ((a, c) :: d) = kadd (if Nat.eqb a j then c else k0) (pick j d).
Proof. intros j a c d. unfold pick. cbn [filter fst]. destruct (Nat.eqb a j); cbn [map snd ksum fold_right]; [reflexivity|ring]. Qed.

Lemma pick_dadd : forall j a (c : K) d, pick j (dadd a c d) = kadd (if Nat.eqb a j then c else k0) (pick j d).
Proof.
  intros j a c d. induction d as [|[b x] d IH]; [apply pick_cons|]. cbn [dadd]. destruct (Nat.eqb a b) eqn:E.
  - apply Nat.eqb_eq in E. subst b. rewrite !pick_cons. destruct (Nat.eqb a j); ring.
  - rewrite !pick_cons, IH. ring.
Qed.

Lemma row_entry : forall (l : list (@triplet K)) i j, pick j (csr_row l i) = entry l i j.
Proof.
  intros l i j. unfold csr_row. assert (A : forall d, pick j (fold_left (fun d p => if Nat.eqb (fst (fst p)) i then dadd (snd (fst p)) (snd p) d else d) l d) = kadd (entry l i j) (pick j d)).
  { induction l as [|[[r q] x] l IH]; intros d; cbn [fold_left fst snd]; [unfold entry; cbn; ring|]. rewrite IH. unfold entry. cbn [filter fst snd].
    destruct (Nat.eqb r i); cbn [andb]; [|reflexivity]. rewrite pick_dadd. destruct (Nat.eqb q j); cbn [map snd]; rewrite ?Sparse_proofs.ksum_cons; ring. }
  rewrite A. unfold pick. cbn. ring.
Qed.

Lemma dadd_fresh : forall j (c : K) d, ~ In j (map fst d) -> dadd j c d = d ++ [(j, c)].
Proof.
  intros j c d. induction d as [|[b x] d IH]; intros N; [reflexivity|]. cbn [dadd map fst In app] in *. destruct (Nat.eqb_spec j b) as [-> |_]; [tauto|]. rewrite IH by tauto. reflexivity.
Qed.

Lemma row_len : forall (l : list (@triplet K)) i, NoDup (map fst l) -> length (csr_row l i) = length (filter (fun p => Nat.eqb (fst (fst p)) i) l).
Proof.
  intros l i ND. unfold csr_row.
  assert (A : forall d, (forall p, In p l -> fst (fst p) = i -> ~ In (snd (fst p)) (map fst d)) ->
    length (fold_left (fun d p => if Nat.eqb (fst (fst p)) i then dadd (snd (fst p)) (snd p) d else d) l d) = (length d + length (filter (fun p => Nat.eqb (fst (fst p)) i) l))%nat).
  { induction l as [|[[r q] x] l IH]; intros d F; cbn [fold_left filter fst snd]; [cbn; lia|]. cbn [map fst] in ND. apply NoDup_cons_iff in ND. destruct ND as [NI ND]. specialize (IH ND).
    destruct (Nat.eqb_spec r i) as [E|E].
    - rewrite dadd_fresh by (apply (F (r, q, x)); [left; reflexivity|exact E]). rewrite IH.
      + rewrite app_length. cbn [length]. lia.
      + intros [[r' q'] x'] Hp E'. cbn [fst snd] in *. rewrite map_app. intros X. apply in_app_iff in X. destruct X as [X|[X|[]]].
        * apply (F _ (or_intror Hp) E' X).
        * cbn in X. subst q' r' r. apply NI. apply in_map_iff. exists (i, q, x'). auto.
    - apply IH. intros p Hp. apply F. right. exact Hp. }
  rewrite A; [reflexivity|]. intros p _ _ [].
Qed.
End Csr.

Lemma sum_point : forall (f : nat -> nat) r n a, (a <= r < a + n)%nat ->
  list_sum (map (fun i => ((if Nat.eqb r i then 1 else 0) + f i)%nat) (seq a n)) = S (list_sum (map f (seq a n))).
Proof.
  intros f r n. induction n as [|n IH]; intros a H; [lia|]. cbn [seq map list_sum fold_right].
  destruct (Nat.eqb_spec r a) as [-> |N].
  - assert (X : map (fun i => ((if Nat.eqb a i then 1 else 0) + f i)%nat) (seq (S a) n) = map f (seq (S a) n)).
    { apply map_ext_in. intros i Hi. apply in_seq in Hi. destruct (Nat.eqb_spec a i); [lia|reflexivity]. }
    change (fold_right Nat.add 0%nat) with list_sum. rewrite X. lia.
  - change (fold_right Nat.add 0%nat) with list_sum. rewrite (IH (S a)) by lia. lia.
Qed.

Lemma sum_rows : forall {A} (row : A -> nat) n (l : list A), (forall p, In p l -> (row p < n)%nat) ->
  list_sum (map (fun i => length (filter (fun p => Nat.eqb (row p) i) l)) (seq 0 n)) = length l.
Proof.
  intros A row n l. induction l as [|p l IH]; intros H.
  - cbn [filter length]. induction (seq 0 n); cbn; auto.
  - cbn [length]. rewrite <- IH by (intros; apply H; right; assumption). rewrite <- (sum_point _ (row p) n 0) by (specialize (H p (or_introl eq_refl)); lia). f_equal. apply map_ext. intros i. cbn [filter].
    destruct (Nat.eqb (row p) i); reflexivity.
Qed.

Lemma concat_len : forall {A} (ls : list (list A)), length (concat ls) = list_sum (map (@length A) ls).
Proof. induction ls as [|l ls IH]; [reflexivity|]. cbn [concat map list_sum fold_right]. rewrite app_length, IH. reflexivity. Qed.

Lemma offsets_len : forall {A} (ls : list (list A)) a, length (offsets a ls) = S (length ls).
Proof. induction ls as [|l ls IH]; intros a; [reflexivity|]. cbn [offsets length]. rewrite IH. reflexivity. Qed.

Lemma offsets_nth : forall {A} (ls : list (list A)) a i, (i <= length ls)%nat -> nth i (offsets a ls) 0%nat = (a + length (concat (firstn i ls)))%nat.
Proof.
  induction ls as [|l ls IH]; intros a i H; destruct i as [|i]; cbn [length] in H; try lia; cbn [offsets nth firstn concat length]; try lia.
  rewrite IH by lia. rewrite app_length. lia.
Qed.

Lemma row_of_concat : forall {A} (ls : list (list A)) i, (i < length ls)%nat ->
  firstn (length (nth i ls [])) (skipn (length (concat (firstn i ls))) (concat ls)) = nth i ls [].
Proof.
  induction ls as [|l ls IH]; intros i H; [cbn in H; lia|]. destruct i as [|i]; cbn [length] in H; cbn [nth firstn concat length skipn].
  - rewrite firstn_app, firstn_all, Nat.sub_diag. cbn [firstn]. apply app_nil_r.
  - rewrite app_length, skipn_app. rewrite skipn_all2 by lia. replace (length l + length (concat (firstn i ls)) - length l)%nat with (length (concat (firstn i ls))) by lia.
    cbn [app]. apply IH. lia.
Qed.

Lemma step_len : forall {A} (ls : list (list A)) i, (i < length ls)%nat -> length (concat (firstn (S i) ls)) = (length (concat (firstn i ls)) + length (nth i ls []))%nat.
Proof.
  induction ls as [|l ls IH]; intros i H; [cbn in H; lia|]. destruct i as [|i]; cbn [length] in H; [cbn [firstn concat nth length]; rewrite app_length; cbn; lia|].
  cbn [firstn concat nth]. rewrite !app_length. specialize (IH i ltac:(lia)). cbn [firstn concat] in IH. destruct ls as [|l' ls]; [cbn in H; lia|]. cbn [firstn concat nth] in *. rewrite IH. lia.
Qed.

Lemma split_pairs : forall {A B} (l : list (A * B)), combine (map fst l) (map snd l) = l.
Proof. induction l as [|[a b] l IH]; [reflexivity|]. cbn. rewrite IH. reflexivity. Qed.

Section Faithful.
Context {K : cring}.
Variable X : @coo K.

Lemma data_indices : length (r_data (tocsr X)) = length (r_indices (tocsr X)).
Proof. unfold tocsr. cbn [r_data r_indices]. rewrite !map_length. reflexivity. Qed.

Lemma indptr_len : length (r_indptr (tocsr X)) = S (c_rows X).
Proof. unfold tocsr. cbn [r_indptr]. rewrite offsets_len, map_length, seq_length. reflexivity. Qed.

Lemma faithful : forall i j, (i < c_rows X)%nat -> csr_entry (tocsr X) i j = entry (c_ent X) i j.
Proof.
  intros i j H. unfold csr_entry, tocsr. cbn [r_data r_indices r_indptr]. rewrite split_pairs. set (rows := map (csr_row (c_ent X)) (seq 0 (c_rows X))).
  assert (L : length rows = c_rows X) by (unfold rows; rewrite map_length, seq_length; reflexivity).
  rewrite !offsets_nth, step_len by lia. replace (0 + (_ + _) - (0 + _))%nat with (length (nth i rows [])) by lia. cbn [Nat.add]. rewrite row_of_concat by lia.
  assert (E : nth i rows [] = csr_row (c_ent X) i).
  { unfold rows. rewrite (nth_indep _ [] (csr_row (c_ent X) 0)) by (rewrite map_length, seq_length; lia). rewrite map_nth, seq_nth by lia. reflexivity. }
  rewrite E. apply row_entry.
Qed.

Lemma data_len : NoDup (map fst (c_ent X)) -> (forall p, In p (c_ent X) -> (fst (fst p) < c_rows X)%nat) -> length (r_data (tocsr X)) = length (c_ent X).
Proof.
  intros ND R. unfold tocsr. cbn [r_data]. rewrite map_length, concat_len, map_map. etransitivity; [|exact (sum_rows (fun p => fst (fst p)) (c_rows X) (c_ent X) R)]. f_equal. apply map_ext. intros i. apply row_len. exact ND.
Qed.

Lemma rows_le : (forall i, (i < c_rows X)%nat -> In (i, i) (map fst (c_ent X))) -> (c_rows X <= length (c_ent X))%nat.
Proof.
  intros D. assert (L : (length (map (fun i => (i, i)) (seq 0 (c_rows X))) <= length (map fst (c_ent X)))%nat); [|rewrite !map_length, seq_length in L; exact L]. apply NoDup_incl_length.
  - apply FinFun.Injective_map_NoDup; [intros x y E; congruence|apply seq_NoDup].
  - intros p Hp. apply in_map_iff in Hp. destruct Hp as [i [<- Hi]]. apply in_seq in Hi. apply D. lia.
Qed.
End Faithful.

Open Scope Z_scope.
Lemma app_cancel : forall a b c, (a ++ b)%string = (a ++ c)%string -> b = c.
Proof. induction a as [|x a IH]; intros b c E; [exact E|]. cbn [append] in E. injection E. apply IH. Qed.

Definition cents (n : Z) : string := (str_int (n / 100) ++ "." ++ digits 2 (n mod 100))%string.
Lemma cents_inj : forall n m, 0 <= n -> 0 <= m -> cents n = cents m -> n = m.
Proof.
  intros n m N M E. unfold cents in E. assert (D : forall z, 0 <= z -> 0 <= z / 100) by (intros; apply Z.div_pos; lia).
  apply (Render_proofs.split_stop Render_proofs.digit) in E; try (apply Render_proofs.str_int_nonneg_digits; auto); try reflexivity. destruct E as [E1 E2].
  apply Render_proofs.str_int_inj in E1. cbn [append] in E2. assert (E3 : digits 2 (n mod 100) = digits 2 (m mod 100)) by congruence.
  apply Keys_proofs.digits_inj in E3; try (change (10 ^ Z.of_nat 2) with 100; apply Z.mod_pos_bound; lia).
  rewrite (Z.div_mod n 100), (Z.div_mod m 100) by lia. congruence.
Qed.
Lemma cents_numch : forall n, Render_proofs.allc Render_proofs.numch (cents n) = true.
Proof. intros n. unfold cents. rewrite !Render_proofs.allc_app, Render_proofs.str_int_numch, Keys_proofs.digits_numch. reflexivity. Qed.
Lemma text_inj : forall a n m, 0 <= n -> 0 <= m -> (a ++ cents n ++ " MB")%string = (a ++ cents m ++ " MB")%string -> n = m.
Proof.
  intros a n m N M E. apply app_cancel in E. apply (Render_proofs.split_stop Render_proofs.numch) in E; try apply cents_numch; try reflexivity. apply cents_inj; tauto.
Qed.
