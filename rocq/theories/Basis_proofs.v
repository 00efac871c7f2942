(** Lemmas on Basis.v: renumbering the unknowns (C60). *)
From Coq Require Import String ZArith List Bool Lia Permutation Ring.
From Verif Require Import Base NdArray NdArray_proofs Config Spec Model Space Spec_space Space_proofs Count_proofs Render Render_proofs Term Equation System Legal_proofs
  Spec_engine Engine_proofs Order_proofs Ring Coef Spec_eom Solvers Spec_solve Sysok_proofs Eom_proofs Sparse_proofs Dense_proofs Mpi Petsc Spec_petsc Petsc_proofs Disk_proofs Basis Spec_basis.
Import ListNotations.
Open Scope list_scope.
Open Scope nat_scope.

(** * Dictionaries *)
Lemma sget_In : forall A k (v : A) d, sget k d = Some v -> In (k, v) d.
Proof.
  intros A k v d. induction d as [|[k' v'] r IH]; cbn [sget]; [discriminate|]. destruct (String.eqb_spec k' k) as [->|N].
  - intros H. injection H as ->. left. reflexivity.
  - intros H. right. auto.
Qed.

Lemma In_sget : forall A k (v : A) d, NoDup (map fst d) -> In (k, v) d -> sget k d = Some v.
Proof.
  intros A k v d. induction d as [|[k' v'] r IH]; intros ND H; [destruct H|]. cbn [map fst] in ND. inversion ND as [|? ? Hn ND']; subst. cbn [sget].
  destruct H as [E|H]; [injection E as -> ->; rewrite String.eqb_refl; reflexivity|].
  destruct (String.eqb_spec k' k) as [->|N]; [|apply IH; auto]. exfalso. apply Hn. apply (in_map fst) in H. exact H.
Qed.

Definition renames (f : nat -> nat) (d d' : sdict nat) : Prop := forall x i, sget x d = Some i -> sget x d' = Some (f i).

(** A bijection of 0 .. n-1. *)
Definition bij (f : nat -> nat) (n : nat) : Prop :=
  (forall i, i < n -> f i < n) /\ (forall i j, i < n -> j < n -> f i = f j -> i = j) /\ (forall j, j < n -> exists i, i < n /\ f i = j).

Definition numf (ids : list string) (d : sdict nat) (i : nat) : nat :=
  match nth_error ids i with Some x => match sget x d with Some j => j | None => 0 end | None => 0 end.

Lemma numbering_bij : forall ids d (f := numf ids d), NoDup ids -> numbering ids d ->
  bij f (List.length ids) /\ List.length d = List.length ids /\ forall i x, nth_error ids i = Some x -> sget x d = Some (f i).
Proof.
  intros ids d f ND [P1 P2].
  assert (N1 : NoDup (map fst d)) by (apply (Permutation_NoDup (Permutation_sym P1) ND)).
  assert (N2 : NoDup (map snd d)) by (apply (Permutation_NoDup (Permutation_sym P2)); apply seq_NoDup).
  assert (G : forall x, In x ids -> exists j, In (x, j) d).
  { intros x H. apply (Permutation_in _ (Permutation_sym P1)) in H. apply in_map_iff in H. destruct H as [[y j] [E H]]. cbn [fst] in E. subst. eauto. }
  assert (S : forall i x, nth_error ids i = Some x -> sget x d = Some (f i)).
  { intros i x H. unfold f, numf. rewrite H. destruct (G x (nth_error_In _ _ H)) as [j J]. rewrite (In_sget _ _ _ _ N1 J). reflexivity. }
  split; [|split; [rewrite <- (map_length fst d); apply Permutation_length; exact P1|exact S]].
  assert (E : forall i, i < List.length ids -> exists x, nth_error ids i = Some x).
  { intros i H. destruct (nth_error ids i) eqn:Q; [eauto|]. apply nth_error_None in Q. lia. }
  split; [|split].
  - intros i H. destruct (E i H) as [x X]. pose proof (sget_In _ _ _ _ (S i x X)) as I. apply (in_map snd) in I. cbn [snd] in I.
    apply (Permutation_in _ P2) in I. apply in_seq in I. lia.
  - intros i j Hi Hj Q. destruct (E i Hi) as [x X]. destruct (E j Hj) as [y Y].
    pose proof (sget_In _ _ _ _ (S i x X)) as I. pose proof (sget_In _ _ _ _ (S j y Y)) as J. rewrite Q in I.
    assert (x = y).
    { revert I J. generalize (f j). intros v I J. clear - N2 I J. induction d as [|[a b] r IH]; [destruct I|]. cbn [map snd] in N2. inversion N2 as [|? ? Hn N']; subst.
      destruct I as [I|I]; destruct J as [J|J].
      - congruence.
      - injection I as _ ->. exfalso. apply Hn. apply (in_map snd) in J. exact J.
      - injection J as _ ->. exfalso. apply Hn. apply (in_map snd) in I. exact I.
      - apply IH; auto. }
    subst y. apply (proj1 (NoDup_nth_error ids) ND i j Hi). congruence.
  - intros j H. assert (I : In j (map snd d)) by (apply (Permutation_in _ (Permutation_sym P2)); apply in_seq; lia).
    apply in_map_iff in I. destruct I as [[x j'] [Q I]]. cbn [snd] in Q. subst j'.
    assert (J : In x ids) by (apply (Permutation_in _ P1); apply (in_map fst) in I; exact I).
    apply In_nth_error in J. destruct J as [i J]. exists i. split; [apply nth_error_Some; congruence|].
    pose proof (S i x J) as Q. rewrite (In_sget _ _ _ _ N1 I) in Q. congruence.
Qed.

Lemma bij_perm : forall f n, bij f n -> Permutation (map f (seq 0 n)) (seq 0 n).
Proof.
  intros f n [R [I S]]. apply NoDup_Permutation.
  - apply NoDup_map_inj; [|apply seq_NoDup]. intros x y Hx Hy. apply in_seq in Hx, Hy. apply I; lia.
  - apply seq_NoDup.
  - intros x. rewrite in_map_iff, in_seq. split.
    + intros [i [<- H]]. apply in_seq in H. pose proof (R i). lia.
    + intros H. destruct (S x) as [i [Hi E]]; [lia|]. exists i. split; [exact E|]. apply in_seq. lia.
Qed.

(** * The sparse matrix *)
Section Sparse.
Context {T : Type} {K : cring}.
Add Ring KRb : (klaws K).
Variable e : env T K.

Definition ren (f : nat -> nat) (tr : list (@triplet K)) : list (@triplet K) := map (fun p => (f (fst (fst p)), f (snd (fst p)), snd p)) tr.
Definition ren1 (f : nat -> nat) (d : list (nat * K)) : list (nat * K) := map (fun p => (f (fst p), snd p)) d.

Lemma dadd_ren : forall f n j c d, (forall i j, i < n -> j < n -> f i = f j -> i = j) -> j < n -> (forall p, In p d -> fst p < n) ->
  dadd (f j) c (ren1 f d) = ren1 f (dadd j c d).
Proof.
  intros f n j c d I J H. induction d as [|[j' c'] r IH]; [reflexivity|]. cbn [ren1 map fst snd dadd].
  pose proof (H (j', c') (or_introl eq_refl)) as L. cbn [fst] in L. destruct (Nat.eqb_spec j j') as [->|N].
  - rewrite Nat.eqb_refl. reflexivity.
  - destruct (Nat.eqb_spec (f j) (f j')) as [E|_]; [exfalso; apply N; apply I; auto|]. cbn [map fst snd]. f_equal. apply IH. intros; apply H; simpl; auto.
Qed.

Lemma row_ren : forall f n d d' ts a r, (forall i j, i < n -> j < n -> f i = f j -> i = j) -> renames f d d' -> (forall x i, sget x d = Some i -> i < n) ->
  (forall p, In p a -> fst p < n) ->
  foldM (fun d0 t => j <- lookup d (tid t) ;; Ok (dadd j (coefficient e t) d0)) ts a = Ok r ->
  foldM (fun d0 t => j <- lookup d' (tid t) ;; Ok (dadd j (coefficient e t) d0)) ts (ren1 f a) = Ok (ren1 f r).
Proof.
  intros f n d d' ts. induction ts as [|t ts IH]; intros a r I R B H E; cbn [foldM] in *; [injection E as <-; reflexivity|].
  unfold lookup at 1 in E. unfold lookup at 1. destruct (sget (tid t) d) as [j|] eqn:Ej; [|discriminate]. rewrite (R _ _ Ej). cbn [bind] in *.
  rewrite (dadd_ren f n) by eauto. apply IH; auto. intros [j0 c0] Hp. apply (in_map fst) in Hp. apply dadd_keys in Hp. cbn [fst] in *.
  destruct Hp as [->|Hp]; [eauto|]. apply in_map_iff in Hp. destruct Hp as [q [<- Hq]]. apply H. exact Hq.
Qed.

Lemma mapM_map : forall A B (g g' : A -> result B) (h : B -> B) l r, (forall x y, In x l -> g x = Ok y -> g' x = Ok (h y)) -> mapM g l = Ok r -> mapM g' l = Ok (map h r).
Proof.
  intros A B g g' h l. induction l as [|x l IH]; intros r H E; cbn [mapM] in *; [injection E as <-; reflexivity|].
  destruct (g x) as [y|] eqn:Ex; [|discriminate]. cbn [bind] in E. destruct (mapM g l) as [ys|] eqn:El; [|discriminate]. injection E as <-.
  rewrite (H x y (or_introl eq_refl) Ex). cbn [bind]. rewrite (IH ys) by (auto; intros; apply H; simpl; auto). reflexivity.
Qed.

Lemma ren_concat : forall f L, ren f (concat L) = concat (map (ren f) L).
Proof. intros. unfold ren. apply concat_map. Qed.

Lemma sparse_row_ren : forall f n d d' q r, (forall i j, i < n -> j < n -> f i = f j -> i = j) -> renames f d d' -> (forall x i, sget x d = Some i -> i < n) ->
  sparse_row e d q = Ok r -> sparse_row e d' q = Ok (ren f r).
Proof.
  intros f n d d' q r I R B E. unfold sparse_row in *. unfold lookup at 1 in E. unfold lookup at 1.
  destruct (sget (tid (e_index q)) d) as [i|] eqn:Ei; [|discriminate]. rewrite (R _ _ Ei). cbn [bind] in *.
  destruct (foldM _ (e_terms q ++ [e_index q]) []) as [a|] eqn:Ea in E; [|discriminate]. injection E as <-.
  assert (R0 := row_ren f n d d' (e_terms q ++ [e_index q]) [] a I R B ltac:(intros p []) Ea). change (ren1 f []) with (@nil (nat * K)) in R0.
  rewrite R0. cbn [bind]. f_equal.
  unfold ren, ren1. rewrite !map_map. reflexivity.
Qed.

Lemma sparse_matrix_ren : forall f n d d' s tr, (forall i j, i < n -> j < n -> f i = f j -> i = j) -> renames f d d' -> (forall x i, sget x d = Some i -> i < n) ->
  sparse_matrix e d s = Ok tr -> sparse_matrix e d' s = Ok (ren f tr).
Proof.
  intros f n d d' s tr I R B E. unfold sparse_matrix in *.
  destruct (mapM _ (range 0 (total_bosons s + 1))) as [ls|] eqn:El in E; [|discriminate]. injection E as <-.
  rewrite (mapM_map _ _ _ _ (ren f) _ ls) with (2 := El).
  - cbn [bind]. rewrite ren_concat. reflexivity.
  - intros k y _ Ey. destruct (equations_at s k) as [es|]; [|discriminate]. cbn [bind] in *.
    destruct (mapM (sparse_row e d) es) as [rs|] eqn:Er; [|discriminate]. injection Ey as <-.
    rewrite (mapM_map _ _ _ (sparse_row e d') (ren f) _ rs) with (2 := Er).
    + cbn [bind]. rewrite ren_concat. reflexivity.
    + intros q y _ Ey. apply (sparse_row_ren f n d d' q y I R B Ey).
Qed.

(** The product with the renumbered matrix. *)
Lemma mv_ren : forall f n tr x i, (forall i j, i < n -> j < n -> f i = f j -> i = j) -> (forall p, In p tr -> fst (fst p) < n) -> i < n ->
  mv (ren f tr) x (f i) = mv tr (fun j => x (f j)) i.
Proof.
  intros f n tr x i I H L. unfold mv, ren. induction tr as [|p r IH]; [reflexivity|]. cbn [map filter fst snd].
  specialize (IH (fun q Hq => H q (or_intror Hq))). pose proof (H p (or_introl eq_refl)) as Lp.
  destruct (Nat.eqb_spec (fst (fst p)) i) as [E|N].
  - rewrite E, Nat.eqb_refl. cbn [map fst snd]. rewrite !ksum_cons, IH. reflexivity.
  - destruct (Nat.eqb_spec (f (fst (fst p))) (f i)) as [E|_]; [exfalso; apply N; apply I; auto|]. exact IH.
Qed.

Lemma nonsingular_ren : forall f n tr, bij f n -> (forall p, In p tr -> fst (fst p) < n) ->
  nonsingular (mkCoo n n tr) -> nonsingular (mkCoo n n (ren f tr)).
Proof.
  intros f n tr [R [I S]] H N x Hx j Hj. cbn [c_rows c_cols c_ent] in *. destruct (S j Hj) as [i [Hi <-]].
  apply (N (fun j => x (f j))); [|exact Hi]. cbn [c_rows c_ent]. intros i' Hi'. rewrite <- (mv_ren f n) by auto. apply Hx. apply R. exact Hi'.
Qed.
End Sparse.

(** * SparseSolver and MassSolverMUMPS with a given numbering *)
Section Flat.
Context {T : Type} {K : cring}.
Add Ring KRf : (klaws K).
Variable e : env T K.
Variable s : system T.
Hypothesis O : sys_ok s.
Variable d : sdict nat.
Variable f : nat -> nat.
Hypothesis B : bij f (NN s).
Hypothesis LD : List.length d = NN s.
Hypothesis FD : forall i x, nth_error (index_ids (all_eqs s)) i = Some x -> sget x d = Some (f i).

Lemma fb_ren : renames f (full_basis s) d.
Proof. intros x i H. apply FD. apply (fb_spec s O). exact H. Qed.

Lemma fb_lt : forall x i, sget x (full_basis s) = Some i -> i < NN s.
Proof.
  intros x i H. apply (fb_spec s O) in H. assert (L : i < List.length (index_ids (all_eqs s))) by (apply nth_error_Some; congruence).
  unfold index_ids in L. rewrite map_length in L. exact L.
Qed.

Lemma matrix_in : sparse_matrix e d s = Ok (ren f (triplets e s)).
Proof. apply (sparse_matrix_ren e f (NN s) (full_basis s)); [apply B|exact fb_ren|exact fb_lt|apply (matrix_ok e s O)]. Qed.

Lemma green_in : sget "{G}[0.0]" d = Some (f (NN s - 1)).
Proof.
  destruct (green_pos s O) as [q [Hq [Et _]]]. apply FD. unfold index_ids. rewrite nth_error_map, Hq. cbn [option_map]. congruence.
Qed.

Lemma row_lt : forall p, In p (triplets e s) -> fst (fst p) < NN s.
Proof. intros [[i j] c] H. apply (trip_range e s O i j c H). Qed.

Lemma ren_range : forall p, In p (ren f (triplets e s)) -> row_of p < NN s /\ col_of p < NN s.
Proof.
  intros p H. unfold ren in H. apply in_map_iff in H. destruct H as [[[i j] c] [<- H]]. unfold row_of, col_of. cbn [fst snd].
  destruct (trip_range e s O i j c H). split; apply B; assumption.
Qed.

Lemma ren_nodup : NoDup (map fst (ren f (triplets e s))).
Proof.
  unfold ren. rewrite map_map. cbn [fst]. rewrite <- (map_map fst (fun ij => (f (fst ij), f (snd ij)))).
  apply NoDup_map_inj; [|apply (trip_nodup e s O)]. intros [i j] [i' j'] H H' E. cbn [fst snd] in E. injection E as E1 E2.
  apply in_map_iff in H, H'. destruct H as [[[a b] c] [Q H]]. destruct H' as [[[a' b'] c'] [Q' H']]. cbn [fst] in Q, Q'. injection Q as -> ->. injection Q' as -> ->.
  destruct (trip_range e s O _ _ _ H). destruct (trip_range e s O _ _ _ H'). destruct B as [_ [I _]]. f_equal; apply I; auto.
Qed.

Lemma dim_in : forall g : nat * nat * K -> nat,
  (forall i j c, In (i, j, c) (ren f (triplets e s)) -> g (i, j, c) < NN s) -> (forall i c, g (i, i, c) = i) ->
  coo_dim (map g (ren f (triplets e s))) = Ok (NN s).
Proof.
  intros g H1 H2. pose proof (NN_pos s O) as P. destruct (proj2 (proj2 B) (NN s - 1) ltac:(lia)) as [i [Hi Fi]].
  pose proof (diag e s O i Hi) as D. apply in_map_iff in D. destruct D as [[p c] [E D]]. cbn [fst] in E. subst p.
  assert (I : In (NN s - 1) (map g (ren f (triplets e s)))).
  { apply in_map_iff. exists (f i, f i, c). split; [rewrite H2; exact Fi|]. unfold ren. apply in_map_iff. exists (i, i, c). auto. }
  unfold coo_dim. destruct (map g (ren f (triplets e s))) as [|x r] eqn:El; [destruct I|]. rewrite <- El in *. f_equal.
  rewrite (lmax_is _ (NN s - 1)); [lia| |exact I]. intros y Hy. apply in_map_iff in Hy. destruct Hy as [[[a b] c'] [<- Hy]].
  apply H1 in Hy. lia.
Qed.

Lemma scaffold_in : scaffold e d s = Ok (mkCoo (NN s) (NN s) (ren f (triplets e s)), mkCoo (S (f (NN s - 1))) 1 [(f (NN s - 1), 0, G0 e)]).
Proof.
  unfold scaffold. rewrite matrix_in. cbn [bind]. unfold coo_matrix at 1.
  rewrite dim_in; [|cbn [fst snd]; intros i j c H; apply (ren_range _ H)|reflexivity]. cbn [bind].
  rewrite dim_in; [|cbn [fst snd]; intros i j c H; apply (ren_range _ H)|reflexivity]. cbn [bind].
  destruct (green_pos s O) as [q [Hq [Et [Eg [E0 _]]]]]. unfold lookup. rewrite green_in. cbn [bind].
  unfold equations_at. rewrite E0. cbn [bind]. unfold bias. rewrite Eg.
  unfold coo_matrix, coo_dim. cbn [map fst snd bind lmax fold_right]. do 4 f_equal. lia.
Qed.

(** G is not last: the shapes differ. *)
Lemma sparse_in_shape : forall sp, f (NN s - 1) <> NN s - 1 -> sparse_solve_in e sp (Some (Flat d)) s = Err ValueError.
Proof.
  intros sp H. unfold sparse_solve_in. cbn [sparse_basis as_flat]. rewrite scaffold_in. cbn [bind c_rows c_cols]. rewrite Nat.eqb_refl.
  cbn [andb]. destruct (Nat.eqb_spec (S (f (NN s - 1))) (NN s)); [pose proof (NN_pos s O); lia|]. reflexivity.
Qed.

Lemma last_inv : f (NN s - 1) = NN s - 1 -> forall i, i < NN s -> f i = NN s - 1 -> i = NN s - 1.
Proof. intros E i Hi H. pose proof (NN_pos s O). apply B; [exact Hi|lia|congruence]. Qed.

(** Solutions of the renumbered system are renumbered solutions. *)
Lemma unique_in : forall (x y : nat -> K) (w w' : nat -> K), nonsingular (mkCoo (NN s) (NN s) (triplets e s)) ->
  (forall i, i < NN s -> mv (ren f (triplets e s)) x i = w i) -> (forall i, i < NN s -> mv (triplets e s) y i = w' i) ->
  (forall i, i < NN s -> w (f i) = w' i) -> forall i, i < NN s -> x (f i) = y i.
Proof.
  intros x y w w' NS H1 H2 W i Hi.
  assert (Z : ksub (x (f i)) (y i) = k0).
  { apply (NS (fun i => ksub (x (f i)) (y i))); [|exact Hi]. cbn [c_rows c_ent]. intros j Hj. rewrite (mv_sub (triplets e s) (fun i => x (f i)) y).
    rewrite <- (mv_ren f (NN s) (triplets e s) x j); [|apply B|exact row_lt|exact Hj].
    rewrite H1, H2, W by (auto; apply B; auto). ring. }
  transitivity (kadd (ksub (x (f i)) (y i)) (y i)); [ring|rewrite Z; ring].
Qed.

Lemma sparse_default : forall sp, spsolve_ok sp -> nonsingular (mkCoo (NN s) (NN s) (triplets e s)) ->
  exists y, sparse_solve e sp s = Ok (y (NN s - 1)) /\
    forall i, i < NN s -> mv (triplets e s) y i = if Nat.eqb i (NN s - 1) then G0 e else k0.
Proof.
  intros sp SO NS. unfold sparse_solve. rewrite (scaffold_ok e s O). cbn [bind c_rows c_cols]. rewrite !Nat.eqb_refl. cbn [guard andb bind].
  destruct (green_pos s O) as [q [Hq [Et _]]]. unfold lookup. rewrite <- Et.
  rewrite (proj2 (fb_spec s O (tid (e_index q)) (NN s - 1))) by (unfold index_ids; rewrite nth_error_map, Hq; reflexivity). cbn [bind].
  eexists. split; [reflexivity|]. intros i Hi. pose proof (SO (mkCoo (NN s) (NN s) (triplets e s)) (mkCoo (NN s) 1 [(NN s - 1, 0, G0 e)]) eq_refl eq_refl NS i Hi) as S1.
  cbn [c_ent] in S1. rewrite S1. unfold entry. cbn [filter fst snd]. rewrite Nat.eqb_refl, andb_true_r, (Nat.eqb_sym (NN s - 1) i).
  destruct (Nat.eqb i (NN s - 1)); cbn [map snd]; rewrite ?ksum_cons; cbn [ksum map fold_right]; ring.
Qed.

Lemma sparse_in : forall sp, spsolve_ok sp -> nonsingular (mkCoo (NN s) (NN s) (triplets e s)) -> f (NN s - 1) = NN s - 1 ->
  sparse_solve_in e sp (Some (Flat d)) s = sparse_solve e sp s.
Proof.
  intros sp SO NS FL. destruct (sparse_default sp SO NS) as [y [-> Hy]]. pose proof (NN_pos s O) as NP.
  unfold sparse_solve_in. cbn [sparse_basis as_flat]. rewrite scaffold_in, FL. replace (S (NN s - 1)) with (NN s) by lia.
  cbn [bind c_rows c_cols]. rewrite !Nat.eqb_refl. cbn [guard andb bind]. unfold lookup. rewrite green_in, FL. cbn [bind]. f_equal.
  set (X := mkCoo (NN s) (NN s) (ren f (triplets e s))). set (v := mkCoo (NN s) 1 [(NN s - 1, 0, G0 e)]).
  assert (SV : solves X v (sp X v)) by (apply SO; auto; apply nonsingular_ren; [exact B|exact row_lt|exact NS]).
  rewrite <- FL at 1. apply (unique_in (sp X v) y (fun i => entry (c_ent v) i 0) (fun i => if Nat.eqb i (NN s - 1) then G0 e else k0) NS SV Hy); [|lia].
  intros i Hi. unfold entry, v. cbn [c_ent filter fst snd]. rewrite Nat.eqb_refl, andb_true_r.
  destruct (Nat.eqb_spec i (NN s - 1)) as [->|N].
  - rewrite FL, Nat.eqb_refl. cbn [map snd]. rewrite ksum_cons. cbn. ring.
  - destruct (Nat.eqb_spec (NN s - 1) (f i)) as [E|_]; [exfalso; apply N; apply (last_inv FL i Hi); auto|reflexivity].
Qed.

(** The mass solver solves for the unknown with the last number, with the
    inhomogeneity in its equation. *)
Lemma mass_in : forall mumps p, mumps_ok mumps -> 1 <= p <= NN s -> nonsingular (mkCoo (NN s) (NN s) (triplets e s)) ->
  exists y l, l < NN s /\ f l = NN s - 1 /\ mass_solve_in e mumps (Some (Flat d)) s p = Ok (y l) /\
    forall i, i < NN s -> mv (triplets e s) y i = if Nat.eqb i l then G0 e else k0.
Proof.
  intros mumps p MO HP NS. pose proof (NN_pos s O) as NP. destruct (proj2 (proj2 B) (NN s - 1) ltac:(lia)) as [l [Hl Fl]].
  destruct (sizes_last (NN s) p HP) as [sz [n [EL [HN SZ]]]].
  destruct (brigade_value mumps sz n (NN s) (ren f (triplets e s)) (G0 e) ren_nodup ren_range SZ HN (nonsingular_ren f (NN s) _ B row_lt NS) MO) as [x [EX HX]].
  exists (fun i => x (f i)), l. split; [exact Hl|]. split; [exact Fl|]. split.
  - unfold mass_solve_in. cbn [sparse_basis as_flat blen]. rewrite matrix_in. cbn [bind]. rewrite LD, EL, EX, Fl. reflexivity.
  - intros i Hi. rewrite <- (mv_ren f (NN s) (triplets e s) x i); [|apply B|exact row_lt|exact Hi]. rewrite HX by (apply B; exact Hi).
    unfold vector_b. destruct (Nat.eqb_spec i l) as [->|N]; [rewrite Fl, Nat.eqb_refl; reflexivity|].
    destruct (Nat.eqb_spec (f i) (NN s - 1)) as [E|_]; [|reflexivity]. exfalso. apply N. apply B; auto. congruence.
Qed.

Lemma mass_in_last : forall mumps sp p, mumps_ok mumps -> spsolve_ok sp -> 1 <= p <= NN s -> nonsingular (mkCoo (NN s) (NN s) (triplets e s)) -> f (NN s - 1) = NN s - 1 ->
  mass_solve_in e mumps (Some (Flat d)) s p = sparse_solve e sp s.
Proof.
  intros mumps sp p MO SO HP NS FL. destruct (sparse_default sp SO NS) as [y [-> Hy]]. pose proof (NN_pos s O) as NP.
  destruct (mass_in mumps p MO HP NS) as [x [l [Hl [Fl [-> Hx]]]]]. pose proof (last_inv FL l Hl Fl) as El. subst l. f_equal.
  assert (Z : ksub (x (NN s - 1)) (y (NN s - 1)) = k0).
  { apply (NS (fun i => ksub (x i) (y i))); [|cbn [c_cols]; lia]. cbn [c_rows c_ent]. intros j Hj. rewrite mv_sub, Hx, Hy by exact Hj. ring. }
  transitivity (kadd (ksub (x (NN s - 1)) (y (NN s - 1))) (y (NN s - 1))); [ring|rewrite Z; ring].
Qed.
End Flat.

(** * Ids that are missing *)
Section Missing.
Context {T : Type} {K : cring}.
Variable e : env T K.

Lemma foldM_key : forall d ts a er, foldM (fun d0 t => j <- lookup d (tid t) ;; Ok (dadd j (coefficient e t) d0)) ts a = Err er -> er = KeyError.
Proof.
  intros d ts. induction ts as [|t ts IH]; intros a er H; cbn [foldM] in H; [discriminate|]. unfold lookup at 1 in H.
  destruct (sget (tid t) d); cbn [bind] in H; [eauto|congruence].
Qed.

Lemma sparse_row_err : forall d q er, sparse_row e d q = Err er -> er = KeyError.
Proof.
  intros d q er H. unfold sparse_row in H. unfold lookup at 1 in H. destruct (sget (tid (e_index q)) d); cbn [bind] in H; [|congruence].
  destruct (foldM _ (e_terms q ++ [e_index q]) []) eqn:E in H; cbn [bind] in H; [discriminate|]. injection H as <-. eapply foldM_key. exact E.
Qed.

Lemma mapM_err_all : forall A B (g : A -> result B) l er, (forall x er, In x l -> g x = Err er -> er = KeyError) -> mapM g l = Err er -> er = KeyError.
Proof.
  intros A B g l. induction l as [|x l IH]; intros er H E; cbn [mapM] in E; [discriminate|].
  destruct (g x) eqn:Ex; cbn [bind] in E; [|injection E as <-; apply (H x); simpl; auto].
  destruct (mapM g l) eqn:El; cbn [bind] in E; [discriminate|]. injection E as <-. apply IH; [intros; eapply H; simpl; eauto|reflexivity].
Qed.

Lemma mapM_in : forall A B (g : A -> result B) l r x, mapM g l = Ok r -> In x l -> exists y, g x = Ok y.
Proof.
  intros A B g l. induction l as [|x l IH]; intros r x0 E I; [destruct I|]. cbn [mapM] in E.
  destruct (g x) eqn:Ex; cbn [bind] in E; [|discriminate]. destruct (mapM g l) eqn:El; cbn [bind] in E; [|discriminate].
  destruct I as [->|I]; [eauto|]. eapply IH; eauto.
Qed.

Lemma matrix_missing : forall s d x, sys_ok s -> In x (index_ids (all_eqs s)) -> sget x d = None -> sparse_matrix e d s = Err KeyError.
Proof.
  intros s d x O I M. destruct (sparse_matrix e d s) as [tr|er] eqn:E.
  - exfalso. unfold sparse_matrix in E. destruct (mapM _ (range 0 (total_bosons s + 1))) as [ls|] eqn:El in E; [|discriminate].
    unfold index_ids in I. apply in_map_iff in I. destruct I as [q [<- Hq]]. apply (In_all s) in Hq. destruct Hq as [n [es [H1 H2]]].
    destruct (mapM_in _ _ _ _ _ n El) as [y Ey]; [apply In_range; pose proof (level_range s O n es H1); lia|].
    destruct (level_ex s O n) as [es' [H3 H4]]; [pose proof (level_range s O n es H1); lia|]. unfold equations_at in Ey. rewrite H4 in Ey. cbn [bind] in Ey.
    rewrite (level_unique s O n es' es H3 H1) in Ey.
    destruct (mapM (sparse_row e d) es) as [rs|] eqn:Er; [|discriminate]. destruct (mapM_in _ _ _ _ _ q Er H2) as [r R].
    unfold sparse_row, lookup at 1 in R. rewrite M in R. discriminate R.
  - f_equal. unfold sparse_matrix in E. destruct (mapM _ (range 0 (total_bosons s + 1))) as [ls|] eqn:El in E; cbn [bind] in E; [discriminate|]. injection E as <-.
    apply mapM_err_all in El; [exact El|]. intros n er' _ H. unfold equations_at in H. destruct (assocZ n (s_eqs s)); cbn [bind] in H; [|congruence].
    destruct (mapM (sparse_row e d) l) eqn:Er; cbn [bind] in H; [discriminate|]. injection H as <-. apply mapM_err_all in Er; [exact Er|].
    intros q er' _ H. eapply sparse_row_err. exact H.
Qed.
End Missing.

(** * DenseSolver with given numberings *)
Section Dense.
Context {T : Type} {F : cfield}.
Add Ring KRd : (klaws F).
Variable e : env T F.

(** The same matrix with rows and columns renumbered. *)
Definition rel (f g : nat -> nat) (A A' : mat F) : Prop :=
  d_rows A' = d_rows A /\ d_cols A' = d_cols A /\ forall i j, i < d_rows A -> j < d_cols A -> d_at A' (f i) (g j) = d_at A i j.

Lemma bij_eqb : forall f n i j, bij f n -> i < n -> j < n -> Nat.eqb (f i) (f j) = Nat.eqb i j.
Proof.
  intros f n i j [_ [I _]] Hi Hj. destruct (Nat.eqb_spec i j) as [->|N]; [apply Nat.eqb_refl|]. apply Nat.eqb_neq. intros E. apply N. apply I; auto.
Qed.

Lemma madd_rel : forall f g A A' A1 i j c, bij f (d_rows A) -> bij g (d_cols A) -> rel f g A A' -> madd A i j c = Ok A1 ->
  exists A1', madd A' (f i) (g j) c = Ok A1' /\ rel f g A1 A1' /\ d_rows A1 = d_rows A /\ d_cols A1 = d_cols A.
Proof.
  intros f g A A' A1 i j c Bf Bg [R [C H]] E. unfold madd in *. destruct (Nat.ltb_spec i (d_rows A)) as [Li|]; [|discriminate].
  destruct (Nat.ltb_spec j (d_cols A)) as [Lj|]; [|discriminate]. cbn [andb guard bind] in E. injection E as <-.
  rewrite R, C, (proj2 (Nat.ltb_lt _ _) (proj1 Bf i Li)), (proj2 (Nat.ltb_lt _ _) (proj1 Bg j Lj)). cbn [andb guard bind].
  eexists. split; [reflexivity|]. split; [|split; reflexivity]. split; [reflexivity|]. split; [reflexivity|]. cbn [d_rows d_cols d_at]. intros i' j' Hi Hj.
  rewrite (bij_eqb f (d_rows A)), (bij_eqb g (d_cols A)) by auto. rewrite H by auto. reflexivity.
Qed.

Lemma fill_row_rel : forall s n sh bn bm bn' bm' f g q A A' A1, bij f (d_rows A) -> bij g (d_cols A) -> renames f bn bn' -> renames g bm bm' -> rel f g A A' ->
  fill_row e s n sh bn bm A q = Ok A1 -> exists A1', fill_row e s n sh bn' bm' A' q = Ok A1' /\ rel f g A1 A1' /\ d_rows A1 = d_rows A /\ d_cols A1 = d_cols A.
Proof.
  intros s n sh bn bm bn' bm' f g q A A' A1 Bf Bg Rf Rg RA E. unfold fill_row in *. unfold lookup at 1 in E. unfold lookup at 1.
  destruct (sget (tid (e_index q)) bn) as [i|] eqn:Ei; [|discriminate]. rewrite (Rf _ _ Ei). cbn [bind] in *.
  revert A A' Bf Bg RA E. generalize (e_terms q). intros ts. induction ts as [|t r IH]; intros A A' Bf Bg RA E; cbn [foldM] in *.
  - injection E as <-. eauto.
  - destruct (negb (total (cfg (t_cfg t)) =? n + sh)%Z); [cbn [bind] in *; apply IH; auto|].
    unfold lookup at 1 in E. unfold lookup at 1. destruct (sget (tid t) bm) as [j|] eqn:Ej; [|discriminate]. rewrite (Rg _ _ Ej). cbn [bind] in *.
    destruct (madd A i j (coefficient e t)) as [A2|] eqn:E2; [|discriminate]. cbn [bind] in E.
    destruct (madd_rel f g A A' A2 i j _ Bf Bg RA E2) as [A2' [E2' [R2 [D1 D2]]]]. rewrite E2'. cbn [bind].
    rewrite <- D1 in Bf. rewrite <- D2 in Bg. destruct (IH A2 A2' Bf Bg R2 E) as [A1' [Q [R3 [D3 D4]]]]. exists A1'. repeat split; auto; try congruence; apply R3.
Qed.

Lemma fill_rows_rel : forall s n sh bn bm bn' bm' f g es A A' A1, bij f (d_rows A) -> bij g (d_cols A) -> renames f bn bn' -> renames g bm bm' -> rel f g A A' ->
  foldM (fill_row e s n sh bn bm) es A = Ok A1 -> exists A1', foldM (fill_row e s n sh bn' bm') es A' = Ok A1' /\ rel f g A1 A1'.
Proof.
  intros s n sh bn bm bn' bm' f g es. induction es as [|q r IH]; intros A A' A1 Bf Bg Rf Rg RA E; cbn [foldM] in *; [injection E as <-; eauto|].
  destruct (fill_row e s n sh bn bm A q) as [A2|] eqn:E2; [|discriminate]. cbn [bind] in E.
  destruct (fill_row_rel _ _ _ _ _ _ _ f g q A A' A2 Bf Bg Rf Rg RA E2) as [A2' [E2' [R2 [D1 D2]]]]. rewrite E2'. cbn [bind].
  rewrite <- D1 in Bf. rewrite <- D2 in Bg. apply (IH A2 A2' A1); auto.
Qed.

Lemma dmv_rel : forall f g A A' x i, bij g (d_cols A) -> rel f g A A' -> i < d_rows A -> dmv A' x (f i) = dmv A (fun j => x (g j)) i.
Proof.
  intros f g A A' x i Bg [R [C H]] Hi. unfold dmv. rewrite C.
  rewrite <- (ksum_perm _ _ (Permutation_map (fun j => kmul (d_at A' (f i) j) (x j)) (bij_perm g (d_cols A) Bg))). rewrite map_map.
  apply ksum_ext. intros j Hj. apply in_seq in Hj. rewrite H by lia. reflexivity.
Qed.

Lemma matmul_rel : forall f g h A A' B B' C, bij g (d_cols A) -> rel f g A A' -> rel g h B B' -> matmul A B = Ok C -> exists C', matmul A' B' = Ok C' /\ rel f h C C'.
Proof.
  intros f g h A A' B B' C Bg RA RB E. unfold matmul in *. destruct (Nat.eqb_spec (d_cols A) (d_rows B)) as [Q|]; [|discriminate]. cbn [guard bind] in E. injection E as <-.
  pose proof RA as [R1 [C1 _]]. pose proof RB as [R2 [C2 H2]]. rewrite C1, R2, Q, Nat.eqb_refl. cbn [guard bind].
  eexists. split; [reflexivity|]. split; [exact R1|]. split; [exact C2|]. cbn [d_rows d_cols d_at]. intros i j Hi Hj.
  pose proof (dmv_rel f g A A' (fun l => d_at B' l (h j)) i Bg RA Hi) as D. unfold dmv in D. rewrite C1, Q in D. etransitivity; [exact D|].
  rewrite <- Q. apply ksum_ext. intros l Hl. apply in_seq in Hl. rewrite H2 by lia. reflexivity.
Qed.

Lemma eye_rel : forall f r A A' X, bij f r -> rel f f A A' -> eye_minus r r A = Ok X -> exists X', eye_minus r r A' = Ok X' /\ rel f f X X'.
Proof.
  intros f r A A' X Bf [R [C H]] E. unfold eye_minus in *. rewrite R, C. destruct (Nat.eqb_spec r (d_rows A)) as [Q|]; [|discriminate].
  destruct (Nat.eqb_spec r (d_cols A)) as [Q'|]; [|discriminate]. cbn [andb guard bind] in *. injection E as <-. eexists. split; [reflexivity|].
  split; [reflexivity|]. split; [reflexivity|]. cbn [d_rows d_cols d_at]. intros i j Hi Hj. rewrite (bij_eqb f r) by auto. rewrite H by lia. reflexivity.
Qed.

Lemma dmv_sub : forall (A : mat F) x y i, dmv A (fun j => ksub (x j) (y j)) i = ksub (dmv A x i) (dmv A y i).
Proof.
  intros A x y i. rewrite (dmv_ext A _ (fun j => kadd (x j) (kopp (y j)))) by (intros; ring). rewrite (dmv_add A x (fun j => kopp (y j))), (dmv_opp A y). ring.
Qed.

Lemma dnonsingular_rel : forall f A A', bij f (d_rows A) -> d_rows A = d_cols A -> rel f f A A' -> dnonsingular A -> dnonsingular A'.
Proof.
  intros f A A' Bf Q RA N x Hx j Hj. pose proof RA as [R [C _]]. rewrite C, <- Q in Hj. destruct (proj2 (proj2 Bf) j Hj) as [i [Hi <-]].
  apply (N (fun j => x (f j))); [|lia]. intros i' Hi'. rewrite <- (dmv_rel f f A A' x i') by (try rewrite <- Q; auto). apply Hx. rewrite R. apply Bf. exact Hi'.
Qed.

Variable ls : mat F -> mat F -> nat -> nat -> F.
Hypothesis LO : lsolve_ok ls.

Lemma solve_rel : forall f g X X' A A' R, bij f (d_rows X) -> rel f f X X' -> rel f g A A' -> bij g (d_cols A) -> dnonsingular X ->
  linalg_solve ls X A = Ok R -> exists R', linalg_solve ls X' A' = Ok R' /\ rel f g R R'.
Proof.
  intros f g X X' A A' R Bf RX RA Bg N E. unfold linalg_solve in *. pose proof RX as [R1 [C1 _]]. pose proof RA as [R2 [C2 H2]].
  destruct (Nat.eqb_spec (d_rows X) (d_cols X)) as [Q|]; [|discriminate]. destruct (Nat.eqb_spec (d_rows X) (d_rows A)) as [Q'|]; [|discriminate].
  cbn [andb guard bind] in E. injection E as <-. rewrite R1, C1, R2, <- Q, <- Q', !Nat.eqb_refl. cbn [andb guard bind].
  eexists. split; [reflexivity|]. split; [reflexivity|]. split; [exact C2|]. cbn [d_rows d_cols d_at]. intros i j Hi Hj.
  pose proof (LO X A Q (eq_sym Q') N) as S1.
  assert (N' : dnonsingular X') by (apply (dnonsingular_rel f X X'); auto).
  pose proof (LO X' A' ltac:(congruence) ltac:(congruence) N') as S2.
  assert (Z : ksub (ls X' A' (f i) (g j)) (ls X A i j) = k0).
  { apply (N (fun i => ksub (ls X' A' (f i) (g j)) (ls X A i j))); [|rewrite <- Q; exact Hi]. intros l Hl. rewrite dmv_sub.
    rewrite <- (dmv_rel f f X X' (fun l => ls X' A' l (g j)) l) by (try rewrite <- Q; auto).
    rewrite (S2 (f l) (g j)), (S1 l j); [rewrite H2 by lia; ring|exact Hl|exact Hj|rewrite R1; apply Bf; exact Hl|rewrite C2; apply Bg; exact Hj]. }
  transitivity (kadd (ksub (ls X' A' (f i) (g j)) (ls X A i j)) (ls X A i j)); [ring|rewrite Z; ring].
Qed.

Variable s : system T.
Hypothesis O : sys_ok s.
Variable b : list (Z * sdict nat).
Hypothesis LN : level_numberings s b.
Let N := total_bosons s.
Open Scope Z_scope.

Definition ldict (k : Z) : sdict nat := match assocZ k b with Some d => d | None => [] end.
Definition fk (k : Z) : nat -> nat := numf (index_ids (lev s k)) (ldict k).

Lemma ldict_ok : forall k, 0 <= k <= N -> basis_at b k = Ok (ldict k) /\ bij (fk k) (dk s k) /\ List.length (ldict k) = dk s k /\
  renames (fk k) (number_ids (index_ids (lev s k))) (ldict k).
Proof.
  intros k Hk. destruct LN as [ND H]. destruct (H k (lev s k) (proj1 (lev_in s O k Hk))) as [d [I NU]].
  assert (E : assocZ k b = Some d) by (apply assocZ_In; auto). unfold basis_at, fk, ldict. rewrite E. split; [reflexivity|].
  change (map (fun q => tid (e_index q)) (lev s k)) with (index_ids (lev s k)) in NU.
  destruct (numbering_bij _ _ (lev_nodup s O k Hk) NU) as [Bf [L FD]]. rewrite ids_len in Bf, L. split; [exact Bf|]. split; [exact L|].
  intros x i Hx. apply FD. apply (number_ids_spec _ (lev_nodup s O k Hk)). exact Hx.
Qed.

Lemma fill_rel : forall n sh, 0 <= n <= N -> 0 <= n + sh <= N -> exists A A', fill_matrix e s n sh = Ok A /\ fill_matrix_in e b s n sh = Ok A' /\
  rel (fk n) (fk (n + sh)) A A' /\ d_rows A = dk s n /\ d_cols A = dk s (n + sh).
Proof.
  intros n sh Hn Hs. destruct (fill_ok e s O n sh Hn Hs) as [A [EA [RA [CA _]]]]. exists A.
  destruct (ldict_ok n Hn) as [E1 [B1 [L1 R1]]]. destruct (ldict_ok (n + sh) Hs) as [E2 [B2 [L2 R2]]].
  pose proof EA as EA'. unfold fill_matrix, equations_at in EA'. rewrite (proj2 (lev_in s O n Hn)) in EA'. cbn [bind] in EA'.
  rewrite (basis_lev s O n Hn), (basis_lev s O (n + sh) Hs) in EA'. cbn [bind] in EA'.
  rewrite !number_len, !ids_len in EA' by (apply (lev_nodup s O); assumption).
  destruct (fill_rows_rel s n sh _ _ (ldict n) (ldict (n + sh)) (fk n) (fk (n + sh)) (lev s n) (mzero (dk s n) (dk s (n + sh))) (mzero (dk s n) (dk s (n + sh))) A B1 B2 R1 R2) with (2 := EA') as [A' [E' R']].
  - split; [reflexivity|]. split; [reflexivity|]. reflexivity.
  - exists A'. split; [exact EA|]. split; [|split; [exact R'|auto]]. unfold fill_matrix_in, equations_at. rewrite (proj2 (lev_in s O n Hn)). cbn [bind].
    rewrite E1, E2. cbn [bind]. rewrite L1, L2. exact E'.
Qed.

Definition R_at_in (k : Z) : result (mat F) :=
  R <- fill_matrix_in e b s N (-1) ;; foldM (dense_step_in e ls b s) (rev (range k N)) R.

Lemma R_at_in_top : R_at_in N = fill_matrix_in e b s N (-1).
Proof. unfold R_at_in. rewrite (range_nil N N) by lia. cbn [rev foldM]. destruct (fill_matrix_in e b s N (-1)); reflexivity. Qed.

Lemma R_at_in_step : forall k, k < N -> R_at_in k = (R <- R_at_in (k + 1) ;; dense_step_in e ls b s R k).
Proof.
  intros k H. unfold R_at_in. destruct (fill_matrix_in e b s N (-1)) as [A|]; [|reflexivity]. cbn [bind].
  rewrite (range_cons k N H). cbn [rev]. rewrite foldM_app. destruct (foldM _ _ A) as [R|]; [|reflexivity]. cbn [bind foldM].
  destruct (dense_step_in e ls b s R k); reflexivity.
Qed.

Hypothesis PN : pivots_nonsingular e s ls.

Lemma R_rel : forall k, 1 <= k <= N -> exists R R', level_ok e s ls k R /\ R_at_in k = Ok R' /\ rel (fk k) (fk (k - 1)) R R'.
Proof.
  intros k Hk. remember (Z.to_nat (N - k)) as n eqn:En. revert k Hk En. induction n as [|n IH]; intros k Hk En.
  - assert (k = N) by lia. subst k. destruct (fill_rel N (-1) ltac:(lia) ltac:(lia)) as [A [A' [E [E' [R [RA CA]]]]]]. exists A, A'.
    split; [constructor; auto; unfold N; rewrite R_at_top; exact E|]. split; [rewrite R_at_in_top; exact E'|exact R].
  - destruct (IH (k + 1) ltac:(lia) ltac:(lia)) as [R [R' [L [ER' RR]]]].
    destruct (step_ok e s O ls k R ltac:(lia) L) as [X [A [EX [EA [RX [CX [RA [CA [L' _]]]]]]]]].
    destruct (fill_rel k (-1) ltac:(lia) ltac:(lia)) as [A0 [A' [E1 [E1' [R1 _]]]]]. assert (A0 = A) by (unfold get_alpha in EA; congruence). subst A0.
    destruct (fill_rel k 1 ltac:(lia) ltac:(lia)) as [Be [Be' [E2 [E2' [R2 [RB CB]]]]]].
    pose proof EX as EX2. unfold pivot, get_beta in EX2. rewrite E2 in EX2. cbn [bind] in EX2. rewrite (lo_R _ _ _ _ _ L) in EX2. cbn [bind] in EX2.
    destruct (matmul Be R) as [C|] eqn:EC; [|discriminate]. cbn [bind] in EX2.
    assert (CR : d_cols R = dk s k) by (rewrite (lo_cols _ _ _ _ _ L); f_equal; lia).
    replace (k + 1 - 1) with k in RR by lia.
    destruct (ldict_ok k ltac:(lia)) as [_ [Bk _]]. destruct (ldict_ok (k + 1) ltac:(lia)) as [_ [Bk1 _]]. destruct (ldict_ok (k - 1) ltac:(lia)) as [_ [Bk2 _]].
    destruct (matmul_rel (fk k) (fk (k + 1)) (fk k) Be Be' R R' C) as [C' [EC' RC]]; [rewrite CB; exact Bk1|exact R2|exact RR|exact EC|].
    rewrite RB, CR in EX2. destruct (eye_rel (fk k) (dk s k) C C' X Bk RC EX2) as [X' [EX' RX']].
    assert (ES : linalg_solve ls X A = Ok (mkMat (d_cols X) (d_cols A) (ls X A))) by (unfold linalg_solve; rewrite RX, CX, RA, !Nat.eqb_refl; reflexivity).
    destruct (solve_rel (fk k) (fk (k - 1)) X X' A A' (mkMat (d_cols X) (d_cols A) (ls X A))) as [S' [ES' RS]]; [rewrite RX; exact Bk|exact RX'|exact R1|rewrite CA; exact Bk2|apply (PN k X ltac:(lia) EX)|exact ES|].
    eexists. exists S'. split; [exact L'|]. split; [|exact RS]. rewrite (R_at_in_step k ltac:(lia)), ER'. cbn [bind]. unfold dense_step_in.
    rewrite E2'. cbn [bind]. rewrite E1'. cbn [bind]. rewrite EC'. cbn [bind].
    destruct R2 as [D1 _]. destruct RR as [_ [D2 _]]. rewrite D1, D2, RB, CR, EX'. cbn [bind]. exact ES'.
Qed.

Lemma dense_in : dense_solve_in e ls (Some (Levels b)) s = dense_solve e ls s.
Proof.
  pose proof (so_N s O) as NP. fold N in NP. destruct (R_rel 1 ltac:(lia)) as [R [R' [L [ER' RR]]]].
  unfold dense_solve_in, dense_solve. cbn [dense_basis as_levels]. fold N. rewrite (proj2 (Z.ltb_lt 0 N) NP).
  change (dense_R e ls s) with (R_at e ls s 1). change (dense_R_in e ls b s) with (R_at_in 1). rewrite ER', (lo_R _ _ _ _ _ L). cbn [bind].
  destruct (fill_rel 0 1 ltac:(lia) ltac:(lia)) as [B0 [B0' [E [E' [RB [RB1 CB1]]]]]]. unfold get_beta. rewrite E, E'. cbn [bind].
  destruct (ldict_ok 0 ltac:(lia)) as [_ [Bz _]]. destruct (ldict_ok 1 ltac:(lia)) as [_ [B1 _]].
  destruct (matmul_ok B0 R) as [C [EC [RC CC]]]; [rewrite CB1, (lo_rows _ _ _ _ _ L); reflexivity|].
  destruct (matmul_rel (fk 0) (fk (0 + 1)) (fk 0) B0 B0' R R' C) as [C' [EC' [Q1 [Q2 Q3]]]]; [rewrite CB1; exact B1|exact RB|exact RR|exact EC|].
  rewrite EC, EC'. cbn [bind].
  assert (D0 : dk s 0 = 1%nat).
  { destruct (so_green s O) as [l [q [El _]]]. unfold dk. pose proof (proj1 (lev_in s O 0 ltac:(lia))) as I.
    rewrite (level_unique s O 0 (lev s 0) [q] I); [reflexivity|]. rewrite El. apply in_app_iff. right. left. reflexivity. }
  assert (F0 : fk 0 0%nat = 0%nat) by (pose proof (proj1 Bz 0%nat); lia).
  assert (C1 : (0 < d_rows C)%nat) by (rewrite RC, RB1; lia).
  assert (C2 : (0 < d_cols C)%nat) by (rewrite CC, (lo_cols _ _ _ _ _ L); change (1 - 1) with 0; lia).
  pose proof (Q3 0%nat 0%nat C1 C2) as Q. rewrite F0 in Q. rewrite Q. reflexivity.
Qed.
End Dense.

Lemma combine_fst : forall A B (l : list A) (l' : list B), List.length l = List.length l' -> map fst (combine l l') = l.
Proof. intros A B l. induction l as [|x l IH]; intros [|y l'] H; cbn in *; try congruence; f_equal; apply IH; congruence. Qed.
Lemma combine_snd : forall A B (l : list A) (l' : list B), List.length l = List.length l' -> map snd (combine l l') = l'.
Proof. intros A B l. induction l as [|x l IH]; intros [|y l'] H; cbn in *; try congruence; f_equal; apply IH; congruence. Qed.
