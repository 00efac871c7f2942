(** Lemmas on Petsc.v: assembly. *)
From Coq Require Import String ZArith List Bool Lia Permutation.
From Verif Require Import Base NdArray NdArray_proofs Config Model Space Render Term Equation System Ring Coef Solvers Spec_solve Utils Mpi Mpi_proofs Petsc Spec_petsc Sysok_proofs Sparse_proofs.
Import ListNotations.
Open Scope list_scope.
Open Scope nat_scope.

Lemma filter_count_app : forall A (f : A -> bool) l l', List.length (filter f (l ++ l')) = List.length (filter f l) + List.length (filter f l').
Proof. intros. rewrite filter_app, app_length. reflexivity. Qed.

Lemma filter_and : forall A (f g : A -> bool) l, filter f (filter g l) = filter (fun x => g x && f x) l.
Proof.
  induction l as [|x l IH]; simpl; auto. destruct (g x) eqn:G; simpl; rewrite IH; auto.
Qed.

Lemma perm_filter : forall A (f : A -> bool) l l', Permutation l l' -> Permutation (filter f l) (filter f l').
Proof.
  intros A f l l' P. induction P; cbn [filter]; auto.
  - destruct (f x); auto.
  - destruct (f x), (f y); auto. apply perm_swap.
  - etransitivity; eassumption.
Qed.

Lemma ranges_length : forall sizes a, List.length (ranges a sizes) = List.length sizes.
Proof. induction sizes; simpl; intros; auto. Qed.

Lemma ranges_nth : forall sizes a i, (i < List.length sizes) ->
  nth_error (ranges a sizes) i = Some (a + sumn (firstn i sizes), a + sumn (firstn (S i) sizes)).
Proof.
  induction sizes as [|n r IH]; intros a i L; simpl in L; [lia|].
  destruct i; cbn [ranges nth_error firstn sumn fold_right].
  - f_equal. f_equal; lia.
  - rewrite IH by lia. cbn [firstn sumn fold_right]. f_equal. f_equal; lia.
Qed.

Lemma owned_iff : forall lo hi i, owned lo hi i = true <-> lo <= i < hi.
Proof. intros. unfold owned. rewrite andb_true_iff, Nat.leb_le, Nat.ltb_lt. reflexivity. Qed.

Section Assembly.
Context {K : cring}.
Notation trip := (@triplet K).

Lemma bump_length : forall l i, List.length (bump l i) = List.length l.
Proof. intros. unfold bump. apply length_setn. Qed.
Lemma bump_nth : forall l i j, i < List.length l -> nth j (bump l i) 0 = nth j l 0 + (if Nat.eqb i j then 1 else 0).
Proof.
  intros l i j L. unfold bump. destruct (Nat.eqb_spec i j).
  - subst. rewrite nth_setn_eq by auto. lia.
  - rewrite nth_setn_ne by auto. lia.
Qed.

Lemma prealloc_gen : forall lo hi (tr : list trip) a b, List.length a = hi - lo -> List.length b = hi - lo ->
  let c := fold_left (fun c p =>
    if owned lo hi (row_of p) then
      if owned lo hi (col_of p) then (bump (fst c) (row_of p - lo), snd c)
      else (fst c, bump (snd c) (row_of p - lo))
    else c) tr (a, b) in
  List.length (fst c) = hi - lo /\ List.length (snd c) = hi - lo /\
  forall i, lo <= i < hi ->
    nth (i - lo) (fst c) 0 = nth (i - lo) a 0 + row_count (owned lo hi) i tr /\
    nth (i - lo) (snd c) 0 = nth (i - lo) b 0 + row_count (fun j => negb (owned lo hi j)) i tr.
Proof.
  induction tr as [|p tr IH]; intros a b A B; cbn [fold_left].
  - split; [exact A|]. split; [exact B|]. intros i I. unfold row_count. simpl. lia.
  - destruct (owned lo hi (row_of p)) eqn:R.
    + pose proof (proj1 (owned_iff _ _ _) R) as R'.
      destruct (owned lo hi (col_of p)) eqn:C; cbn [fst snd].
      * destruct (IH (bump a (row_of p - lo)) b) as [X [Y H]]; [rewrite bump_length; auto|auto|].
        split; [exact X|]. split; [exact Y|]. intros i I. destruct (H i I) as [H1 H2]. rewrite H1, H2.
        rewrite bump_nth by lia. unfold row_count. cbn [filter]. fold (row_of p). fold (col_of p). rewrite C.
        destruct (Nat.eqb_spec (row_of p - lo) (i - lo)), (Nat.eqb_spec (row_of p) i); cbn [andb negb List.length]; lia.
      * destruct (IH a (bump b (row_of p - lo))) as [X [Y H]]; [auto|rewrite bump_length; auto|].
        split; [exact X|]. split; [exact Y|]. intros i I. destruct (H i I) as [H1 H2]. rewrite H1, H2.
        rewrite bump_nth by lia. unfold row_count. cbn [filter]. fold (row_of p). fold (col_of p). rewrite C.
        destruct (Nat.eqb_spec (row_of p - lo) (i - lo)), (Nat.eqb_spec (row_of p) i); cbn [andb negb List.length]; lia.
    + destruct (IH a b A B) as [X [Y H]]. split; [exact X|]. split; [exact Y|]. intros i I. destruct (H i I) as [H1 H2]. rewrite H1, H2.
      unfold row_count. cbn [filter]. fold (row_of p).
      assert (NE : Nat.eqb (row_of p) i = false).
      { apply Nat.eqb_neq. intros X0. assert (owned lo hi (row_of p) = true) by (apply owned_iff; lia). congruence. }
      rewrite NE. cbn [andb]. lia.
Qed.

Lemma prealloc_spec : forall lo hi (tr : list trip),
  List.length (fst (prealloc lo hi tr)) = hi - lo /\ List.length (snd (prealloc lo hi tr)) = hi - lo /\
  forall i, lo <= i < hi ->
    nth (i - lo) (fst (prealloc lo hi tr)) 0 = row_count (owned lo hi) i tr /\
    nth (i - lo) (snd (prealloc lo hi tr)) 0 = row_count (fun j => negb (owned lo hi j)) i tr.
Proof.
  intros lo hi tr. destruct (prealloc_gen lo hi tr (repeat 0 (hi - lo)) (repeat 0 (hi - lo))) as [A [B H]]; try apply repeat_length.
  unfold prealloc. split; [exact A|]. split; [exact B|]. intros i I. destruct (H i I) as [H1 H2].
  rewrite H1, H2. rewrite nth_repeat. split; reflexivity.
Qed.

Lemma same_pos_iff : forall p q : trip, same_pos p q = true <-> fst p = fst q.
Proof.
  intros [[a b] c] [[a' b'] c']. unfold same_pos, row_of, col_of. cbn [fst snd]. rewrite andb_true_iff, !Nat.eqb_eq.
  split; [intros [-> ->]; reflexivity|intros E; split; congruence].
Qed.

Lemma assemble_ok : forall N lo hi (tr : list trip), NoDup (map fst tr) -> (forall p, In p tr -> col_of p < N) ->
  assemble N lo hi tr = Ok (filter (fun p => owned lo hi (row_of p)) tr).
Proof.
  intros N lo hi tr ND CN. unfold assemble.
  destruct (prealloc_spec lo hi tr) as [_ [_ PS]]. remember (prealloc lo hi tr) as cap.
  assert (G : forall rest done seen, tr = seen ++ rest -> done = filter (fun p => owned lo hi (row_of p)) seen ->
    foldM (set_value N lo hi cap) (filter (fun p => owned lo hi (row_of p)) rest) done = Ok (filter (fun p => owned lo hi (row_of p)) tr)).
  { induction rest as [|p rest IH]; intros done seen E D.
    - rewrite app_nil_r in E. subst. reflexivity.
    - assert (E' : tr = (seen ++ [p]) ++ rest) by (rewrite <- app_assoc; exact E).
      cbn [filter]. destruct (owned lo hi (row_of p)) eqn:R.
      2:{ apply (IH done (seen ++ [p]) E'). rewrite filter_app. cbn [filter]. rewrite R, app_nil_r. exact D. }
      cbn [foldM].
      assert (SV : set_value N lo hi cap done p = Ok (done ++ [p])).
      { unfold set_value. assert (IP : In p tr) by (rewrite E; apply in_app_iff; right; left; reflexivity).
        rewrite (proj2 (Nat.ltb_lt _ _) (CN p IP)). cbn [guard bind].
        assert (NX : existsb (same_pos p) done = false).
        { destruct (existsb (same_pos p) done) eqn:X; [|reflexivity]. apply existsb_exists in X. destruct X as [q [Q S]].
          apply same_pos_iff in S. rewrite D in Q. apply filter_In in Q. destruct Q as [Q _].
          exfalso. rewrite E, map_app in ND. cbn [map] in ND. apply NoDup_remove_2 in ND. apply ND. apply in_app_iff. left.
          rewrite S. apply in_map. exact Q. }
        rewrite NX. cbn zeta.
        pose proof (proj1 (owned_iff _ _ _) R) as R'. destruct (PS (row_of p) R') as [P1 P2].
        assert (CAP : nth (row_of p - lo) (if owned lo hi (col_of p) then fst cap else snd cap) 0 =
          row_count (fun j => Bool.eqb (owned lo hi j) (owned lo hi (col_of p))) (row_of p) tr).
        { destruct (owned lo hi (col_of p)); [rewrite P1|rewrite P2]; unfold row_count; f_equal; apply filter_ext; intros q;
            f_equal; destruct (owned lo hi (snd (fst q))); reflexivity. }
        rewrite CAP.
        assert (LT : List.length (filter (fun q => Nat.eqb (row_of q) (row_of p) && Bool.eqb (owned lo hi (col_of q)) (owned lo hi (col_of p))) done) <
          row_count (fun j => Bool.eqb (owned lo hi j) (owned lo hi (col_of p))) (row_of p) tr).
        { unfold row_count. rewrite E, filter_count_app. cbn [filter]. fold (row_of p). fold (col_of p).
          rewrite Nat.eqb_refl, Bool.eqb_reflx. cbn [andb List.length]. rewrite D, filter_and.
          match goal with |- List.length (filter ?f seen) < List.length (filter ?g seen) + _ =>
            assert (L : List.length (filter f seen) <= List.length (filter g seen)) end.
          { clear. induction seen as [|q l IH]; [simpl; lia|]. cbn [filter]. fold (row_of q). fold (col_of q).
            destruct (owned lo hi (row_of q)); cbn [andb]; [destruct (_ && _); cbn [List.length]; lia|].
            destruct (_ && _); cbn [List.length]; lia. }
          eapply Nat.le_lt_trans; [exact L|]. apply Nat.lt_add_pos_r, Nat.lt_0_succ. }
        rewrite (proj2 (Nat.ltb_lt _ _) LT). reflexivity. }
      rewrite SV. cbn [bind]. apply (IH _ (seen ++ [p]) E'). rewrite filter_app. cbn [filter]. rewrite R. f_equal. exact D. }
  apply (G tr [] []); reflexivity.
Qed.

Lemma assembled_all : forall sizes N (tr : list trip), NoDup (map fst tr) -> (forall p, In p tr -> col_of p < N) ->
  mapM (fun r => assemble N (fst r) (snd r) tr) (ranges 0 sizes) =
  Ok (map (fun r => filter (fun p => owned (fst r) (snd r) (row_of p)) tr) (ranges 0 sizes)).
Proof.
  intros sizes N tr ND CN. rewrite <- mapM_pure. apply mapM_ext_in. intros [lo hi] _. apply assemble_ok; auto.
Qed.

Lemma split_perm : forall sizes a (tr : list trip),
  Permutation (List.concat (map (fun r => filter (fun p => owned (fst r) (snd r) (row_of p)) tr) (ranges a sizes)))
    (filter (fun p => owned a (a + sumn sizes) (row_of p)) tr).
Proof.
  induction sizes as [|n r IH]; intros a tr; cbn [ranges map List.concat sumn fold_right fst snd].
  - rewrite Nat.add_0_r. induction tr as [|p t IHt]; [constructor|]. cbn [filter].
    destruct (owned a a (row_of p)) eqn:X; [apply owned_iff in X; lia|exact IHt].
  - rewrite IH. fold (sumn r). clear IH. induction tr as [|p t IHt]; [constructor|]. cbn [filter].
    destruct (owned a (a + n) (row_of p)) eqn:X, (owned (a + n) (a + n + sumn r) (row_of p)) eqn:Y, (owned a (a + (n + sumn r)) (row_of p)) eqn:Z;
      try (apply owned_iff in X); try (apply owned_iff in Y); try (apply owned_iff in Z); try lia;
      try (assert (owned a (a + (n + sumn r)) (row_of p) = true) by (apply owned_iff; lia); congruence).
    + cbn [app]. constructor. exact IHt.
    + rewrite <- Permutation_middle. constructor. exact IHt.
    + exfalso. assert (a <= row_of p < a + n \/ a + n <= row_of p < a + n + sumn r) as [H|H] by lia;
        apply owned_iff in H; congruence.
    + exact IHt.
Qed.

Lemma mv_perm : forall (tr tr' : list trip) x i, Permutation tr tr' -> mv tr x i = mv tr' x i.
Proof.
  intros tr tr' x i P. unfold mv. apply ksum_perm. apply Permutation_map. apply perm_filter. exact P.
Qed.

Lemma nonsingular_perm : forall n (tr tr' : list trip), Permutation tr tr' -> nonsingular (mkCoo n n tr) -> nonsingular (mkCoo n n tr').
Proof.
  intros n tr tr' P NS x Z. cbn [c_rows c_cols c_ent] in *. apply NS. cbn [c_rows c_ent]. intros i I. rewrite (mv_perm _ _ x i P). apply Z. exact I.
Qed.

Lemma last_value : forall sizes (x : nat -> K) n, 0 < n ->
  last_entry (map (local_part x) (ranges 0 (sizes ++ [n]))) = Ok (x (sumn sizes + n - 1)).
Proof.
  intros sizes x n N. unfold last_entry. rewrite map_length, ranges_length, app_length. cbn [List.length].
  replace (List.length sizes + 1 - 1) with (List.length sizes) by lia.
  rewrite nth_error_map, ranges_nth by (rewrite app_length; simpl; lia). cbn [option_map].
  rewrite (firstn_all2 (n := S (List.length sizes)) (sizes ++ [n])) by (rewrite app_length; simpl; lia).
  rewrite firstn_app, firstn_all, Nat.sub_diag. cbn [firstn]. rewrite app_nil_r.
  rewrite sumn_app. cbn [sumn fold_right]. unfold local_part. cbn [fst snd].
  destruct n as [|n]; [lia|].
  replace (0 + (sumn sizes + (S n + 0)) - (0 + sumn sizes)) with (n + 1) by lia.
  rewrite seq_app, map_app, rev_app_distr. cbn [seq map rev app]. f_equal. f_equal. lia.
Qed.

Lemma last_value_empty : forall sizes (x : nat -> K), last_entry (map (local_part x) (ranges 0 (sizes ++ [0]))) = Err IndexError.
Proof.
  intros sizes x. unfold last_entry. rewrite map_length, ranges_length, app_length. cbn [List.length].
  replace (List.length sizes + 1 - 1) with (List.length sizes) by lia.
  rewrite nth_error_map, ranges_nth by (rewrite app_length; simpl; lia). cbn [option_map].
  rewrite (firstn_all2 (n := S (List.length sizes)) (sizes ++ [0])) by (rewrite app_length; simpl; lia).
  rewrite firstn_app, firstn_all, Nat.sub_diag. cbn [firstn]. rewrite app_nil_r.
  rewrite sumn_app. cbn [sumn fold_right]. unfold local_part. cbn [fst snd].
  replace (0 + (sumn sizes + (0 + 0)) - (0 + sumn sizes)) with 0 by lia. reflexivity.
Qed.

Variable mumps : nat -> list trip -> (nat -> K) -> nat -> K.

(** The value for any row distribution whose last rank is not empty. *)
Lemma brigade_value : forall sizes n N (tr : list trip) g, NoDup (map fst tr) -> (forall p, In p tr -> row_of p < N /\ col_of p < N) ->
  sumn sizes + n = N -> 0 < n -> nonsingular (mkCoo N N tr) -> mumps_ok mumps ->
  exists x, brigade_solve mumps (sizes ++ [n]) N tr g = Ok (x (N - 1)) /\
    forall i, i < N -> mv tr x i = vector_b N g i.
Proof.
  intros sizes n N tr g ND RG SZ NP NS MO. unfold brigade_solve.
  rewrite assembled_all by (auto; intros p H; apply RG; auto). cbn [bind].
  match goal with |- context [mumps N ?l ?b] => remember l as L; exists (mumps N L b) end.
  split; [rewrite last_value by auto; f_equal; f_equal; lia|].
  assert (P : Permutation tr L).
  { rewrite HeqL. rewrite split_perm. rewrite sumn_app. cbn [sumn fold_right]. cbn [plus].
    rewrite (filter_id _ _ tr); [reflexivity|]. intros p H. apply owned_iff. destruct (RG p H). unfold sumn in *. lia. }
  intros i I. rewrite (mv_perm _ _ _ i P). apply MO; auto. apply (nonsingular_perm N tr L P NS).
Qed.
End Assembly.

