(** Lemmas on the continued fraction of DenseSolver (C23). *)
From Coq Require Import String ZArith List Bool Lia Permutation Ring.
From Verif Require Import Base NdArray NdArray_proofs Config Spec Model Space Spec_space Space_proofs Count_proofs Render Render_proofs Term Equation System Legal_proofs
  Spec_engine Engine_proofs Order_proofs Ring Coef Spec_eom Solvers Spec_solve Sysok_proofs Eom_proofs Sparse_proofs.
Import ListNotations.
Open Scope list_scope.
Open Scope Z_scope.

Lemma foldM_app : forall {A S} (f : S -> A -> result S) l l' x,
  foldM f (l ++ l') x = (y <- foldM f l x ;; foldM f l' y).
Proof.
  intros A S f l. induction l as [|a r IH]; intros l' x; [reflexivity|]. cbn [app foldM].
  destruct (f x a) as [y|]; [apply IH|reflexivity].
Qed.

Lemma range_cons : forall a b, a < b -> range a b = a :: range (a + 1) b.
Proof.
  intros a b H. unfold range. replace (Z.to_nat (b - a)) with (S (Z.to_nat (b - (a + 1)))) by lia.
  cbn [seq map]. f_equal; [lia|]. rewrite <- seq_shift, map_map. apply map_ext. intros; lia.
Qed.

Lemma range_nil : forall a b, b <= a -> range a b = [].
Proof. intros a b H. unfold range. replace (Z.to_nat (b - a)) with 0%nat by lia. reflexivity. Qed.

Lemma sset_len : forall {A} k (v : A) d, sget k d = None -> List.length (sset k v d) = S (List.length d).
Proof.
  intros A k v d. induction d as [|[k' v'] r IH]; intros H; [reflexivity|]. cbn [sget sset] in *.
  destruct (String.eqb k' k); [discriminate|]. cbn [List.length]. f_equal. apply IH. exact H.
Qed.

Lemma sget_sset_other : forall {A} k k' (v : A) d, k <> k' -> sget k' (sset k v d) = sget k' d.
Proof. intros A k k' v d N. rewrite sget_sset. destruct (String.eqb_spec k k'); [contradiction|reflexivity]. Qed.

Lemma number_len : forall ids, NoDup ids -> List.length (number_ids ids) = List.length ids.
Proof.
  intros ids ND. unfold number_ids.
  assert (A : forall l a d, NoDup l -> (forall x, In x l -> sget x d = None) ->
    List.length (fold_left (fun d p => sset (snd p) (fst p) d) (combine (seq a (List.length l)) l) d) = (List.length l + List.length d)%nat).
  { induction l as [|x r IH]; intros a d N H; [reflexivity|]. cbn [List.length seq combine fold_left fst snd].
    inversion N as [|? ? Hn N']; subst. rewrite IH; [rewrite sset_len by (apply H; simpl; auto); lia|exact N'|].
    intros y Hy. rewrite sget_sset_other; [apply H; simpl; auto|]. intros ->. contradiction. }
  rewrite A; [simpl; lia|exact ND|reflexivity].
Qed.

Section Mats.
Context {F : cfield}.
Add Ring KRd : (klaws F).

Lemma madd_ok : forall (A : mat F) i j c, (i < d_rows A)%nat -> (j < d_cols A)%nat ->
  exists A', madd A i j c = Ok A' /\ d_rows A' = d_rows A /\ d_cols A' = d_cols A /\
    forall x i', dmv A' x i' = kadd (dmv A x i') (if Nat.eqb i' i then kmul c (x j) else k0).
Proof.
  intros A i j c Hi Hj. unfold madd, guard. rewrite (proj2 (Nat.ltb_lt _ _) Hi), (proj2 (Nat.ltb_lt _ _) Hj). cbn [andb bind].
  eexists. split; [reflexivity|]. cbn [d_rows d_cols]. split; [reflexivity|]. split; [reflexivity|].
  intros x i'. unfold dmv. cbn [d_cols d_at]. destruct (Nat.eqb i' i); cbn [andb].
  - rewrite <- (ksum_pick (fun j => kmul c (x j)) (d_cols A) 0 j) by lia. rewrite <- ksum_add. apply ksum_ext. intros l _.
    destruct (Nat.eqb l j); ring.
  - ring.
Qed.

Lemma dmv_zero : forall r c (x : nat -> F) i, dmv (mzero r c) x i = k0.
Proof. intros. unfold dmv. apply ksum_zero. intros; cbn. ring. Qed.

Lemma dmv_ext : forall (A : mat F) x y i, (forall j, (j < d_cols A)%nat -> x j = y j) -> dmv A x i = dmv A y i.
Proof. intros A x y i H. apply ksum_ext. intros j Hj. apply in_seq in Hj. rewrite H by lia. reflexivity. Qed.

Lemma dmv_add : forall (A : mat F) x y i, dmv A (fun j => kadd (x j) (y j)) i = kadd (dmv A x i) (dmv A y i).
Proof. intros. unfold dmv. rewrite <- ksum_add. apply ksum_ext. intros; ring. Qed.

Lemma dmv_opp : forall (A : mat F) x i, dmv A (fun j => kopp (x j)) i = kopp (dmv A x i).
Proof.
  intros A x i. transitivity (kmul (kopp k1) (dmv A x i)); [|ring]. unfold dmv. rewrite <- ksum_scal. apply ksum_ext. intros; ring.
Qed.

Lemma dmv_matmul : forall (A B C : mat F) x i, matmul A B = Ok C -> dmv C x i = dmv A (dmv B x) i.
Proof.
  intros A B C x i H. unfold matmul, guard in H. destruct (Nat.eqb_spec (d_cols A) (d_rows B)); [|discriminate].
  cbn [bind] in H. injection H as <-. unfold dmv. cbn [d_cols d_at].
  rewrite (ksum_ext _ (fun j => ksum (map (fun l => kmul (kmul (d_at A i l) (d_at B l j)) (x j)) (seq 0 (d_cols A))))).
  - rewrite ksum_swap. apply ksum_ext. intros l _. rewrite <- ksum_scal. apply ksum_ext. intros; ring.
  - intros j _. symmetry. apply ksum_scal_r.
Qed.

Lemma dmv_eye_minus : forall r (A X : mat F) x i, eye_minus r r A = Ok X -> (i < r)%nat -> dmv X x i = ksub (x i) (dmv A x i).
Proof.
  intros r A X x i H Hi. unfold eye_minus, guard in H. destruct (Nat.eqb r (d_rows A) && Nat.eqb r (d_cols A)) eqn:E; [|discriminate].
  apply andb_true_iff in E. destruct E as [_ E]. apply Nat.eqb_eq in E. cbn [bind] in H. injection H as <-. unfold dmv. cbn [d_cols d_at].
  rewrite <- (ksum_pick x r 0 i) by lia. rewrite <- E.
  rewrite (ksum_ext _ (fun j => kadd (if Nat.eqb j i then x j else k0) (kmul (kopp k1) (kmul (d_at A i j) (x j))))).
  - rewrite ksum_add, ksum_scal. ring.
  - intros j _. rewrite (Nat.eqb_sym i j). destruct (Nat.eqb j i); ring.
Qed.

Lemma dmv_cols : forall (X B : mat F) R x i, msolves X B R -> (i < d_rows X)%nat ->
  dmv X (dmv (mkMat (d_cols X) (d_cols B) R) x) i = dmv B x i.
Proof.
  intros X B R x i H Hi. unfold dmv. cbn [d_cols d_at].
  rewrite (ksum_ext _ (fun j => ksum (map (fun l => kmul (kmul (d_at X i j) (R j l)) (x l)) (seq 0 (d_cols B))))).
  - rewrite ksum_swap. apply ksum_ext. intros l Hl. apply in_seq in Hl. rewrite ksum_scal_r. f_equal.
    apply (H i l Hi). lia.
  - intros j _. rewrite <- ksum_scal. apply ksum_ext. intros; ring.
Qed.

Lemma ksum_one : forall {A B} (dec : B -> B -> bool) (p : A -> B) (r : A -> F) l x, (forall b b', dec b b' = true <-> b = b') ->
  NoDup (map p l) -> In x l -> ksum (map (fun y => if dec (p y) (p x) then r y else k0) l) = r x.
Proof.
  intros A B dec p r l x D ND H. induction l as [|y l IH]; [destruct H|]. cbn [map] in *. inversion ND as [|? ? Hn ND']; subst.
  rewrite ksum_cons. destruct H as [->|H].
  - rewrite (proj2 (D _ _) eq_refl). rewrite ksum_zero; [ring|]. intros z Hz. destruct (dec (p z) (p x)) eqn:E; [|reflexivity].
    apply D in E. exfalso. apply Hn. rewrite <- E. apply in_map. exact Hz.
  - rewrite IH by assumption. destruct (dec (p y) (p x)) eqn:E; [|ring]. apply D in E. exfalso. apply Hn. rewrite E. apply in_map. exact H.
Qed.
End Mats.

Section Levels.
Context {T : Type} {F : cfield}.
Add Ring KRl : (klaws F).
Variable e : env T F.
Variable s : system T.
Hypothesis O : sys_ok s.
Let N := total_bosons s.

Definition lev (k : Z) : list (equation T) := match assocZ k (s_eqs s) with Some es => es | None => [] end.
Definition lpos (k : Z) (x : string) : nat := match sget x (number_ids (index_ids (lev k))) with Some i => i | None => 0%nat end.
Definition dk (k : Z) : nat := List.length (lev k).

Lemma lev_in : forall k, 0 <= k <= N -> In (k, lev k) (s_eqs s) /\ assocZ k (s_eqs s) = Some (lev k).
Proof. intros k H. destruct (level_ex s O k H) as [es [H1 H2]]. unfold lev. rewrite H2. auto. Qed.

Lemma lev_all : forall k q, 0 <= k <= N -> In q (lev k) -> In q (all_eqs s).
Proof. intros k q H Hq. apply In_all. exists k, (lev k). split; [apply (lev_in k H)|exact Hq]. Qed.

Lemma all_lev : forall q, In q (all_eqs s) -> exists k, 0 <= k <= N /\ In q (lev k).
Proof.
  intros q H. apply In_all in H. destruct H as [k [es [H1 H2]]]. exists k. pose proof (level_range s O k es H1) as L. split; [exact L|].
  rewrite (level_unique s O k _ _ (proj1 (lev_in k L)) H1). exact H2.
Qed.

Lemma lev_nodup : forall k, 0 <= k <= N -> NoDup (index_ids (lev k)).
Proof. intros k H. apply (level_NoDup s O k). apply (lev_in k H). Qed.

Lemma basis_lev : forall k, 0 <= k <= N -> basis_at (local_basis s) k = Ok (number_ids (index_ids (lev k))).
Proof.
  intros k H. unfold basis_at. rewrite (assocZ_In (local_basis s) k (number_ids (index_ids (lev k)))); [reflexivity| |].
  - unfold local_basis. rewrite map_map. cbn [fst]. apply (keys_nodup s O).
  - unfold local_basis. apply in_map_iff. exists (k, lev k). split; [reflexivity|apply (lev_in k H)].
Qed.

Lemma ids_len : forall k, List.length (index_ids (lev k)) = dk k.
Proof. intros. unfold index_ids, dk. apply map_length. Qed.

Lemma lpos_spec : forall k x, 0 <= k <= N -> In x (index_ids (lev k)) ->
  sget x (number_ids (index_ids (lev k))) = Some (lpos k x) /\ nth_error (index_ids (lev k)) (lpos k x) = Some x /\ (lpos k x < dk k)%nat.
Proof.
  intros k x Hk H. apply In_nth_error in H. destruct H as [i Hi].
  pose proof (proj2 (number_ids_spec _ (lev_nodup k Hk) x i) Hi) as E. unfold lpos. rewrite E. split; [reflexivity|]. split; [exact Hi|].
  rewrite <- ids_len. apply nth_error_Some. congruence.
Qed.

Lemma lpos_nth : forall k i q, 0 <= k <= N -> nth_error (lev k) i = Some q -> lpos k (tid (e_index q)) = i.
Proof.
  intros k i q Hk H. unfold lpos. rewrite (proj2 (number_ids_spec _ (lev_nodup k Hk) (tid (e_index q)) i)); [reflexivity|].
  unfold index_ids. rewrite nth_error_map, H. reflexivity.
Qed.

Lemma lpos_nodup : forall k, 0 <= k <= N -> NoDup (map (fun q => lpos k (tid (e_index q))) (lev k)).
Proof.
  intros k Hk. replace (map (fun q => lpos k (tid (e_index q))) (lev k)) with (map (lpos k) (index_ids (lev k)))
    by (unfold index_ids; rewrite map_map; reflexivity). apply NoDup_map_inj.
  - intros x y Hx Hy E. destruct (lpos_spec k x Hk Hx) as [_ [X _]]. destruct (lpos_spec k y Hk Hy) as [_ [Y _]].
    rewrite E in X. congruence.
  - apply (lev_nodup k Hk).
Qed.

Lemma term_lev : forall q t k, In q (all_eqs s) -> In t (e_terms q) -> total (cfg (t_cfg t)) = k -> 0 <= k <= N ->
  In (tid t) (index_ids (lev k)).
Proof.
  intros q t k Hq Ht Ek Hk. destruct (term_in_level s O q t k (lev k) Hq Ht Ek (proj1 (lev_in k Hk))) as [q' [H E]].
  rewrite E. apply (in_map (fun q => tid (e_index q))). exact H.
Qed.

Lemma term_range : forall q t, In q (all_eqs s) -> In t (e_terms q) -> 0 <= total (cfg (t_cfg t)) <= N.
Proof.
  intros q t Hq Ht. pose proof (so_closed s O q t Hq Ht) as I. unfold index_ids in I. apply in_map_iff in I. destruct I as [q' [E Hq']].
  rewrite (term_level s O q t q' Hq Ht Hq' (eq_sym E)). apply In_all in Hq'. destruct Hq' as [k [es [H1 H2]]].
  rewrite (proj1 (so_level s O k es q' H1 H2)). apply (level_range s O k es H1).
Qed.

(** The part of equation [q] with total [k]. *)
Definition part (k : Z) (x : nat -> F) (q : equation T) : F :=
  ksum (map (fun t => kmul (coefficient e t) (x (lpos k (tid t)))) (filter (fun t => total (cfg (t_cfg t)) =? k) (e_terms q))).

Lemma fill_row_ok : forall n sh A q, 0 <= n <= N -> 0 <= n + sh <= N -> In q (lev n) -> d_rows A = dk n -> d_cols A = dk (n + sh) ->
  exists A', fill_row e s n sh (number_ids (index_ids (lev n))) (number_ids (index_ids (lev (n + sh)))) A q = Ok A' /\
    d_rows A' = dk n /\ d_cols A' = dk (n + sh) /\
    forall x i, dmv A' x i = kadd (dmv A x i) (if Nat.eqb i (lpos n (tid (e_index q))) then part (n + sh) x q else k0).
Proof.
  intros n sh A q Hn Hs Hq R C. unfold fill_row, part.
  assert (Iq : In (tid (e_index q)) (index_ids (lev n))) by (apply (in_map (fun q => tid (e_index q))); exact Hq).
  destruct (lpos_spec n _ Hn Iq) as [E1 [_ L1]]. unfold lookup at 1. rewrite E1. cbn [bind].
  assert (HT : forall t, In t (e_terms q) -> In t (e_terms q)) by auto. revert HT. generalize (e_terms q) at 1 3 4. intros ts. revert A R C.
  induction ts as [|t r IH]; intros A R C HT; cbn [foldM filter].
  - exists A. split; [reflexivity|]. split; [exact R|]. split; [exact C|]. intros x i. simpl. destruct (Nat.eqb i _); ring.
  - destruct (Z.eqb_spec (total (cfg (t_cfg t))) (n + sh)) as [E|E]; cbn [negb].
    + assert (It : In (tid t) (index_ids (lev (n + sh)))).
      { apply (term_lev q); [apply (lev_all n q Hn Hq)|apply HT; simpl; auto|exact E|exact Hs]. }
      destruct (lpos_spec (n + sh) _ Hs It) as [E2 [_ L2]]. unfold lookup at 1. rewrite E2. cbn [bind].
      destruct (madd_ok A (lpos n (tid (e_index q))) (lpos (n + sh) (tid t)) (coefficient e t)) as [A1 [EA [R1 [C1 S1]]]]; [congruence|congruence|].
      rewrite EA. cbn [bind]. destruct (IH A1) as [A' [E' [R' [C' S']]]]; [congruence|congruence|intros; apply HT; simpl; auto|].
      exists A'. split; [exact E'|]. split; [exact R'|]. split; [exact C'|]. intros x i. rewrite S', S1. cbn [map]. rewrite ksum_cons.
      destruct (Nat.eqb i _); ring.
    + apply IH; auto. intros; apply HT; simpl; auto.
Qed.

Lemma fill_ok : forall n sh, 0 <= n <= N -> 0 <= n + sh <= N ->
  exists A, fill_matrix e s n sh = Ok A /\ d_rows A = dk n /\ d_cols A = dk (n + sh) /\
    forall x i q, nth_error (lev n) i = Some q -> dmv A x i = part (n + sh) x q.
Proof.
  intros n sh Hn Hs. unfold fill_matrix, equations_at. rewrite (proj2 (lev_in n Hn)). cbn [bind].
  rewrite (basis_lev n Hn), (basis_lev (n + sh) Hs). cbn [bind].
  rewrite !number_len, !ids_len by (apply lev_nodup; assumption).
  assert (A0 : forall es A, (forall q, In q es -> In q (lev n)) -> d_rows A = dk n -> d_cols A = dk (n + sh) ->
    exists A', foldM (fill_row e s n sh (number_ids (index_ids (lev n))) (number_ids (index_ids (lev (n + sh))))) es A = Ok A' /\
      d_rows A' = dk n /\ d_cols A' = dk (n + sh) /\
      forall x i, dmv A' x i = kadd (dmv A x i) (ksum (map (fun q => if Nat.eqb (lpos n (tid (e_index q))) i then part (n + sh) x q else k0) es))).
  { induction es as [|q r IH]; intros A HE R C; cbn [foldM].
    - exists A. repeat split; auto. intros. simpl. ring.
    - destruct (fill_row_ok n sh A q Hn Hs (HE q (or_introl eq_refl)) R C) as [A1 [E1 [R1 [C1 S1]]]]. rewrite E1. cbn [bind].
      destruct (IH A1) as [A' [E' [R' [C' S']]]]; [intros; apply HE; simpl; auto|assumption|assumption|].
      exists A'. repeat split; auto. intros x i. rewrite S', S1. cbn [map]. rewrite ksum_cons, (Nat.eqb_sym i). ring. }
  destruct (A0 (lev n) (mzero (dk n) (dk (n + sh)))) as [A [E [R [C S]]]]; [auto|reflexivity|reflexivity|].
  exists A. split; [exact E|]. split; [exact R|]. split; [exact C|]. intros x i q Hi. rewrite S, dmv_zero, <- (lpos_nth n i q Hn Hi).
  rewrite (ksum_one Nat.eqb (fun q => lpos n (tid (e_index q))) (part (n + sh) x) (lev n) q).
  - ring.
  - intros; apply Nat.eqb_eq.
  - apply (lpos_nodup n Hn).
  - apply (nth_error_In _ _ Hi).
Qed.

(** The values of an assignment on level [k]. *)
Definition xlev (u : nd * list Z -> F) (k : Z) (i : nat) : F :=
  match nth_error (lev k) i with Some q => u (unk (e_index q)) | None => k0 end.

Lemma xlev_term : forall u q t k, proper u -> In q (all_eqs s) -> In t (e_terms q) -> total (cfg (t_cfg t)) = k ->
  xlev u k (lpos k (tid t)) = u (unk t).
Proof.
  intros u q t k P Hq Ht Ek. pose proof (term_range q t Hq Ht) as Hk. rewrite Ek in Hk.
  destruct (lpos_spec k _ Hk (term_lev q t k Hq Ht Ek Hk)) as [_ [X _]].
  unfold index_ids in X. rewrite nth_error_map in X. unfold xlev. destruct (nth_error (lev k) (lpos k (tid t))) as [q'|] eqn:E; [|discriminate].
  cbn [option_map] in X. assert (X' : tid (e_index q') = tid t) by congruence.
  apply (u_same s O u q' (e_index q') q t P (lev_all k q' Hk (nth_error_In _ _ E)) Hq (or_introl eq_refl) (or_intror Ht) X').
Qed.

Lemma part_value : forall u q k, proper u -> In q (all_eqs s) ->
  part k (xlev u k) q = ksum (map (fun t => kmul (coefficient e t) (u (unk t))) (filter (fun t => total (cfg (t_cfg t)) =? k) (e_terms q))).
Proof.
  intros u q k P Hq. unfold part. apply ksum_ext. intros t Ht. apply filter_In in Ht. destruct Ht as [Ht Ek]. apply Z.eqb_eq in Ek.
  rewrite (xlev_term u q t k P Hq Ht Ek). reflexivity.
Qed.

Lemma ksum_split : forall {A} (f : A -> F) (b b' : A -> bool) l, (forall x, In x l -> b x = negb (b' x)) ->
  ksum (map f l) = kadd (ksum (map f (filter b l))) (ksum (map f (filter b' l))).
Proof.
  intros A f b b' l H. induction l as [|x r IH]; [simpl; ring|]. cbn [map filter]. rewrite ksum_cons, IH by (intros; apply H; simpl; auto).
  rewrite (H x (or_introl eq_refl)). destruct (b' x); cbn [negb map]; rewrite ksum_cons; ring.
Qed.

Lemma row_split : forall u k q, proper u -> 0 <= k <= N -> In q (lev k) ->
  row e u q = kadd (u (unk (e_index q)))
    (kadd (if 0 <? k then part (k - 1) (xlev u (k - 1)) q else k0) (if k <? N then part (k + 1) (xlev u (k + 1)) q else k0)).
Proof.
  intros u k q P Hk Hq. pose proof (lev_all k q Hk Hq) as Aq. unfold row. f_equal.
  destruct (so_level s O k (lev k) q (proj1 (lev_in k Hk)) Hq) as [_ L].
  rewrite (ksum_split (fun t => kmul (coefficient e t) (u (unk t))) (fun t => total (cfg (t_cfg t)) =? k - 1) (fun t => total (cfg (t_cfg t)) =? k + 1)).
  - f_equal.
    + destruct (Z.ltb_spec 0 k); [symmetry; apply part_value; assumption|]. destruct L as [[L _]|[-> L]]; [lia|].
      apply ksum_zero. intros t Ht. apply filter_In in Ht. destruct Ht as [Ht E]. apply L in Ht. lia.
    + destruct (Z.ltb_spec k N); [symmetry; apply part_value; assumption|].
      apply ksum_zero. intros t Ht. apply filter_In in Ht. destruct Ht as [Ht E]. pose proof (term_range q t Aq Ht). lia.
  - intros t Ht. destruct L as [[_ L]|[-> L]]; apply L in Ht; lia.
Qed.

(** * The recursion *)
Variable ls : mat F -> mat F -> nat -> nat -> F.

Lemma alpha_ok : forall k, 1 <= k <= N -> exists A, get_alpha e s k = Ok A /\ d_rows A = dk k /\ d_cols A = dk (k - 1) /\
  forall x i q, nth_error (lev k) i = Some q -> dmv A x i = part (k - 1) x q.
Proof. intros k H. unfold get_alpha. replace (k - 1) with (k + -1) by lia. apply fill_ok; lia. Qed.

Lemma beta_ok : forall k, 0 <= k < N -> exists A, get_beta e s k = Ok A /\ d_rows A = dk k /\ d_cols A = dk (k + 1) /\
  forall x i q, nth_error (lev k) i = Some q -> dmv A x i = part (k + 1) x q.
Proof. intros k H. unfold get_beta. apply fill_ok; lia. Qed.

Lemma R_at_top : R_at e ls s N = get_alpha e s N.
Proof. unfold R_at. fold N. rewrite (range_nil N N) by lia. cbn [rev foldM]. destruct (get_alpha e s N); reflexivity. Qed.

Lemma R_at_step : forall k, k < N -> R_at e ls s k = (R <- R_at e ls s (k + 1) ;; dense_step e ls s R k).
Proof.
  intros k H. unfold R_at. fold N. destruct (get_alpha e s N) as [A|]; [|reflexivity]. cbn [bind].
  rewrite (range_cons k N H). cbn [rev]. rewrite foldM_app. destruct (foldM _ _ A) as [R|]; [|reflexivity]. cbn [bind foldM].
  destruct (dense_step e ls s R k); reflexivity.
Qed.

Lemma matmul_ok : forall (A B : mat F), d_cols A = d_rows B -> exists C, matmul A B = Ok C /\ d_rows C = d_rows A /\ d_cols C = d_cols B.
Proof. intros A B H. unfold matmul, guard. rewrite (proj2 (Nat.eqb_eq _ _) H). cbn [bind]. eexists. split; [reflexivity|]. auto. Qed.

Lemma eye_ok : forall r (A : mat F), d_rows A = r -> d_cols A = r -> exists X, eye_minus r r A = Ok X /\ d_rows X = r /\ d_cols X = r.
Proof. intros r A H H'. unfold eye_minus, guard. rewrite H, H', !Nat.eqb_refl. cbn [andb bind]. eexists. split; [reflexivity|]. auto. Qed.

(** Level k of the recursion: the matrices and how they act. *)
Record level_ok (k : Z) (R : mat F) : Prop := {
  lo_R : R_at e ls s k = Ok R;
  lo_rows : d_rows R = dk k;
  lo_cols : d_cols R = dk (k - 1) }.

Lemma step_ok : forall k R, 1 <= k < N -> level_ok (k + 1) R -> exists X A,
  pivot e ls s k = Ok X /\ get_alpha e s k = Ok A /\ d_rows X = dk k /\ d_cols X = dk k /\ d_rows A = dk k /\ d_cols A = dk (k - 1) /\
  level_ok k (mkMat (d_cols X) (d_cols A) (ls X A)) /\
  (forall x i q, nth_error (lev k) i = Some q -> dmv X x i = ksub (x i) (part (k + 1) (dmv R x) q)).
Proof.
  intros k R Hk L. destruct (alpha_ok k ltac:(lia)) as [A [EA [RA [CA SA]]]]. destruct (beta_ok k ltac:(lia)) as [B [EB [RB [CB SB]]]].
  destruct (matmul_ok B R) as [C [EC [RC CC]]]; [rewrite CB, (lo_rows _ _ L); reflexivity|].
  assert (CR : d_cols R = dk k) by (rewrite (lo_cols _ _ L); f_equal; lia).
  destruct (eye_ok (dk k) C) as [X [EX [RX CX]]]; [congruence|congruence|].
  exists X, A. split; [|split; [exact EA|split; [exact RX|split; [exact CX|split; [exact RA|split; [exact CA|split]]]]]].
  - unfold pivot. rewrite EB. cbn [bind]. rewrite (lo_R _ _ L). cbn [bind]. rewrite EC. cbn [bind]. rewrite RB, CR. exact EX.
  - constructor; [|exact CX|exact CA]. rewrite (R_at_step k ltac:(lia)), (lo_R _ _ L). cbn [bind]. unfold dense_step. rewrite EB. cbn [bind].
    rewrite EA. cbn [bind]. rewrite EC. cbn [bind]. rewrite RB, CR, EX. cbn [bind]. unfold linalg_solve, guard.
    rewrite RX, CX, RA, !Nat.eqb_refl. reflexivity.
  - intros x i q Hi. assert (Li : (i < dk k)%nat) by (unfold dk; apply nth_error_Some; congruence).
    rewrite (dmv_eye_minus _ _ _ x i EX Li), (dmv_matmul _ _ _ x i EC), (SB _ i q Hi). reflexivity.
Qed.

Lemma R_ok : forall k, 1 <= k <= N -> exists R, level_ok k R.
Proof.
  intros k Hk. remember (Z.to_nat (N - k)) as n eqn:En. revert k Hk En. induction n as [|n IH]; intros k Hk En.
  - assert (k = N) by lia. subst k. destruct (alpha_ok N Hk) as [A [EA [RA [CA _]]]]. exists A. constructor; auto. rewrite R_at_top. exact EA.
  - destruct (IH (k + 1) ltac:(lia) ltac:(lia)) as [R L]. destruct (step_ok k R ltac:(lia) L) as [X [A [_ [_ [_ [_ [_ [_ [L' _]]]]]]]]]. eauto.
Qed.

Definition Rk (k : Z) : mat F := match R_at e ls s k with Ok R => R | Err _ => mzero 0 0 end.
Lemma Rk_ok : forall k, 1 <= k <= N -> level_ok k (Rk k).
Proof. intros k Hk. destruct (R_ok k Hk) as [R L]. unfold Rk. rewrite (lo_R _ _ L). exact L. Qed.

(** The library routine solved every system it was given. *)
Definition pivots_solved : Prop := forall k X A, 1 <= k < N -> pivot e ls s k = Ok X -> get_alpha e s k = Ok A -> msolves X A (ls X A).

Lemma R_acts : pivots_solved -> forall k x i q, 1 <= k <= N -> nth_error (lev k) i = Some q ->
  kadd (part (k - 1) x q) (if k <? N then part (k + 1) (dmv (Rk (k + 1)) (dmv (Rk k) x)) q else k0) = dmv (Rk k) x i.
Proof.
  intros PS k x i q Hk Hi. destruct (Z.ltb_spec k N) as [Lt|Ge].
  - destruct (step_ok k (Rk (k + 1)) ltac:(lia) (Rk_ok (k + 1) ltac:(lia))) as [X [A [EX [EA [RX [CX [RA [CA [L SX]]]]]]]]].
    assert (ER : Rk k = mkMat (d_cols X) (d_cols A) (ls X A)) by (unfold Rk; rewrite (lo_R _ _ L); reflexivity).
    pose proof (PS k X A ltac:(lia) EX EA) as M. assert (Li : (i < d_rows X)%nat) by (rewrite RX; unfold dk; apply nth_error_Some; congruence).
    pose proof (dmv_cols X A (ls X A) x i M Li) as D. rewrite <- ER in D. rewrite (SX _ i q Hi) in D.
    destruct (alpha_ok k ltac:(lia)) as [A' [EA' [_ [_ SA]]]]. assert (A' = A) by congruence. subst A'.
    rewrite (SA x i q Hi) in D. rewrite <- D. ring.
  - assert (k = N) by lia. subst k. destruct (alpha_ok N Hk) as [A [EA [RA [CA SA]]]].
    assert (ER : Rk N = A) by (unfold Rk; rewrite R_at_top, EA; reflexivity). rewrite ER, (SA x i q Hi). ring.
Qed.

(** The denominator. *)
Lemma den_ok : exists D, denominator e ls s = Ok D /\ dense_solve e ls s = Ok (kmul (G0 e) (kinv D)) /\
  forall c q, In q (lev 0) -> ksub c (part 1 (dmv (Rk 1) (fun _ => c)) q) = kmul D c.
Proof.
  pose proof (so_N s O) as NP. fold N in NP. pose proof (Rk_ok 1 ltac:(lia)) as L. destruct (beta_ok 0 ltac:(lia)) as [B [EB [RB [CB SB]]]].
  destruct (matmul_ok B (Rk 1)) as [C [EC [RC CC]]]; [rewrite CB, (lo_rows _ _ L); reflexivity|].
  assert (D0 : dk 0 = 1%nat).
  { destruct (so_green s O) as [l [q [El _]]]. unfold dk. pose proof (proj1 (lev_in 0 ltac:(lia))) as I.
    rewrite (level_unique s O 0 (lev 0) [q] I); [reflexivity|]. rewrite El. apply in_app_iff. right. left. reflexivity. }
  eexists. split; [unfold denominator; rewrite EB; cbn [bind]; rewrite (lo_R _ _ L); cbn [bind]; rewrite EC; reflexivity|]. split.
  - unfold dense_solve. fold N. rewrite (proj2 (Z.ltb_lt 0 N) NP). change (dense_R e ls s) with (R_at e ls s 1).
    rewrite (lo_R _ _ L). cbn [bind]. rewrite EB. cbn [bind]. rewrite EC. reflexivity.
  - intros c q Hq. apply In_nth_error in Hq. destruct Hq as [i Hi]. assert (Li : (i < dk 0)%nat) by (unfold dk; apply nth_error_Some; congruence).
    assert (i = 0)%nat by lia. subst i. rewrite <- (SB _ 0%nat q Hi), <- (dmv_matmul _ _ _ _ _ EC). unfold dmv. rewrite CC, (lo_cols _ _ L).
    change (1 - 1) with 0. rewrite D0. cbn [seq map]. rewrite ksum_cons. simpl. ring.
Qed.

Lemma lev0_one : forall q q', In q (lev 0) -> In q' (lev 0) -> q = q'.
Proof.
  destruct (so_green s O) as [l [q [El _]]]. pose proof (so_N s O) as NP. fold N in NP. pose proof (proj1 (lev_in 0 ltac:(lia))) as I.
  rewrite (level_unique s O 0 (lev 0) [q] I) by (rewrite El; apply in_app_iff; right; left; reflexivity).
  intros a b [<-|[]] [<-|[]]. reflexivity.
Qed.

Lemma green_lev0 : forall q, In q (all_eqs s) -> (e_green q = true <-> In q (lev 0)).
Proof.
  intros q Hq. destruct (so_green s O) as [l [q0 [El [_ [G1 G2]]]]]. pose proof (so_N s O) as NP. fold N in NP. pose proof (proj1 (lev_in 0 ltac:(lia))) as I.
  rewrite (level_unique s O 0 (lev 0) [q0] I) by (rewrite El; apply in_app_iff; right; left; reflexivity). split.
  - intros H. unfold all_eqs in Hq. rewrite El, flat_map_app in Hq. cbn [flat_map snd app] in Hq. apply in_app_iff in Hq.
    destruct Hq as [Hq|Hq]; [rewrite (G2 q Hq) in H; discriminate|exact Hq].
  - intros [<-|[]]. exact G1.
Qed.

(** The back substitution f_k = - R_k f_{k-1}, starting from f_0 = c. *)
Fixpoint back (c : F) (n : nat) : nat -> F :=
  match n with Datatypes.O => fun _ => c | S m => fun i => kopp (dmv (Rk (Z.of_nat n)) (back c m) i) end.
Definition uback (c : F) (p : nd * list Z) : F :=
  back c (Z.to_nat (total (fst p))) (lpos (total (fst p)) (term_id (fst p) (Some (mkVec true (snd p))))).

Lemma uback_proper : forall c, proper (uback c).
Proof.
  intros c a a' d V V' P P'. unfold uback. cbn [fst snd].
  rewrite (proj2 (valid_total_free _ V) P), (proj2 (valid_total_free _ V') P'). reflexivity.
Qed.

Lemma uback_lev : forall c k i, 0 <= k <= N -> (i < dk k)%nat -> xlev (uback c) k i = back c (Z.to_nat k) i.
Proof.
  intros c k i Hk Hi. unfold xlev. destruct (nth_error (lev k) i) as [q|] eqn:E; [|apply nth_error_None in E; unfold dk in Hi; lia].
  pose proof (lev_all k q Hk (nth_error_In _ _ E)) as Aq.
  destruct (so_valid s O q (e_index q) Aq (or_introl eq_refl)) as [V [f Ef]].
  unfold uback, unk. rewrite Ef. cbn [fst snd].
  rewrite (proj1 (so_level s O k (lev k) q (proj1 (lev_in k Hk)) (nth_error_In _ _ E))).
  replace (term_id (cfg (t_cfg (e_index q))) (Some (mkVec true (v2 f)))) with (tid (e_index q)).
  - rewrite (lpos_nth k i q Hk E). reflexivity.
  - unfold tid. rewrite Ef. apply term_id_spec; auto.
Qed.

Lemma part_ext : forall k x y q, 0 <= k <= N -> In q (all_eqs s) -> (forall i, (i < dk k)%nat -> x i = y i) -> part k x q = part k y q.
Proof.
  intros k x y q Hk Hq H. unfold part. apply ksum_ext. intros t Ht. apply filter_In in Ht. destruct Ht as [Ht E]. apply Z.eqb_eq in E.
  rewrite H; [reflexivity|]. apply (lpos_spec k _ Hk). apply (term_lev q t k Hq Ht E Hk).
Qed.

Lemma part_opp : forall k x q, part k (fun i => kopp (x i)) q = kopp (part k x q).
Proof.
  intros k x q. unfold part. transitivity (kmul (kopp k1) (ksum (map (fun t => kmul (coefficient e t) (x (lpos k (tid t))))
   (filter (fun t => total (cfg (t_cfg t)) =? k) (e_terms q))))); [|ring].
  rewrite <- ksum_scal. apply ksum_ext. intros; ring.
Qed.

Lemma back_S : forall c k i, 1 <= k -> back c (Z.to_nat k) i = kopp (dmv (Rk k) (back c (Z.to_nat (k - 1))) i).
Proof.
  intros c k i H. replace (Z.to_nat k) with (S (Z.to_nat (k - 1))) by lia. cbn [back].
  replace (Z.of_nat (S (Z.to_nat (k - 1)))) with k by lia. reflexivity.
Qed.

Lemma uback_rows : pivots_solved -> forall c k q, 1 <= k <= N -> In q (lev k) -> row e (uback c) q = k0.
Proof.
  intros PS c k q Hk Hq. pose proof (lev_all k q ltac:(lia) Hq) as Aq. rewrite (row_split _ k q (uback_proper c) ltac:(lia) Hq).
  rewrite (proj2 (Z.ltb_lt 0 k)) by lia. apply In_nth_error in Hq. destruct Hq as [i Hi].
  assert (Li : (i < dk k)%nat) by (unfold dk; apply nth_error_Some; congruence).
  pose proof (uback_lev c k i ltac:(lia) Li) as V. unfold xlev in V at 1. rewrite Hi in V. rewrite V, (back_S c k i) by lia.
  rewrite <- (R_acts PS k (back c (Z.to_nat (k - 1))) i q Hk Hi).
  rewrite (part_ext (k - 1) (xlev (uback c) (k - 1)) (back c (Z.to_nat (k - 1))) q) by (first [lia|exact Aq|intros; apply uback_lev; [lia|assumption]]).
  destruct (Z.ltb_spec k N) as [Lt|]; [|ring].
  rewrite (part_ext (k + 1) (xlev (uback c) (k + 1)) (fun i => dmv (Rk (k + 1)) (dmv (Rk k) (back c (Z.to_nat (k - 1)))) i) q).
  - change (fun i => dmv (Rk (k + 1)) (dmv (Rk k) (back c (Z.to_nat (k - 1)))) i) with (dmv (Rk (k + 1)) (dmv (Rk k) (back c (Z.to_nat (k - 1))))). ring.
  - lia.
  - exact Aq.
  - intros j Lj. rewrite (uback_lev c (k + 1) j) by (first [lia|exact Lj]). rewrite (back_S c (k + 1) j) by lia.
    rewrite <- dmv_opp. apply dmv_ext. intros l _. replace (k + 1 - 1) with k by lia. rewrite (back_S c k l) by lia. ring.
Qed.

Lemma uback_green : forall c D, (forall c q, In q (lev 0) -> ksub c (part 1 (dmv (Rk 1) (fun _ => c)) q) = kmul D c) ->
  forall q, In q (lev 0) -> row e (uback c) q = kmul D c /\ uback c (unk (e_index q)) = c.
Proof.
  intros c D HD q Hq. pose proof (so_N s O) as NP. fold N in NP. pose proof (lev_all 0 q ltac:(lia) Hq) as Aq.
  assert (V : uback c (unk (e_index q)) = c).
  { pose proof Hq as Hq'. apply In_nth_error in Hq'. destruct Hq' as [i Hi]. assert (Li : (i < dk 0)%nat) by (unfold dk; apply nth_error_Some; congruence).
    pose proof (uback_lev c 0 i ltac:(lia) Li) as V. unfold xlev in V. rewrite Hi in V. exact V. }
  split; [|exact V]. rewrite (row_split _ 0 q (uback_proper c) ltac:(lia) Hq), V. rewrite (proj2 (Z.ltb_lt 0 N) NP). cbn [Z.ltb Z.compare].
  rewrite <- (HD c q Hq).
  rewrite (part_ext (0 + 1) (xlev (uback c) (0 + 1)) (fun i => kopp (dmv (Rk 1) (fun _ => c) i)) q).
  - rewrite part_opp. change (fun i => dmv (Rk 1) (fun _ => c) i) with (dmv (Rk 1) (fun _ => c)). change (0 + 1) with 1. change (0 <? 0) with false. cbv iota. ring.
  - lia.
  - exact Aq.
  - intros j Lj. rewrite (uback_lev c (0 + 1) j) by (first [lia|exact Lj]). rewrite (back_S c (0 + 1) j) by lia. reflexivity.
Qed.

Lemma kinv_r : forall x : F, x <> k0 -> kmul x (kinv x) = k1.
Proof. intros x H. transitivity (kmul (kinv x) x); [ring|apply kinv_l; exact H]. Qed.

(** The dense result extends to a solution. *)
Lemma dense_extends : pivots_solved -> exists D, denominator e ls s = Ok D /\ dense_solve e ls s = Ok (kmul (G0 e) (kinv D)) /\
  (D <> k0 -> exists u, proper u /\ solution e s u /\ g_value s u (kmul (G0 e) (kinv D))) /\
  (D = k0 -> exists u, proper u /\ (forall q, In q (all_eqs s) -> row e u q = k0) /\ g_value s u k1).
Proof.
  intros PS. destruct den_ok as [D [E1 [E2 HD]]]. exists D. split; [exact E1|]. split; [exact E2|]. split.
  - intros ND. exists (uback (kmul (G0 e) (kinv D))). split; [apply uback_proper|]. split.
    + intros q Hq. destruct (all_lev q Hq) as [k [Hk Hqk]]. unfold holds. rewrite (bias_level s O e k (lev k) q (proj1 (lev_in k Hk)) Hqk).
      destruct (Z.eqb_spec k 0) as [->|NZ]; [|apply (uback_rows PS _ k); [lia|exact Hqk]].
      rewrite (proj1 (uback_green _ D HD q Hqk)). transitivity (kmul (G0 e) (kmul D (kinv D))); [ring|]. rewrite kinv_r by exact ND. ring.
    + intros q Hq Eg. apply (uback_green _ D HD). apply green_lev0; assumption.
  - intros ZD. exists (uback k1). split; [apply uback_proper|]. split.
    + intros q Hq. destruct (all_lev q Hq) as [k [Hk Hqk]]. destruct (Z.eq_dec k 0) as [->|NZ]; [|apply (uback_rows PS _ k); [lia|exact Hqk]].
      rewrite (proj1 (uback_green _ D HD q Hqk)), ZD. ring.
    + intros q Hq Eg. apply (uback_green _ D HD). apply green_lev0; assumption.
Qed.

(** Nonsingular pivots force the back substitution. *)
Definition pivots_nonsingular : Prop := forall k X, 1 <= k < N -> pivot e ls s k = Ok X -> dnonsingular X.

Lemma forced : pivots_solved -> pivots_nonsingular -> forall u, proper u ->
  (forall k q, 1 <= k <= N -> In q (lev k) -> row e u q = k0) ->
  forall k i, 1 <= k <= N -> (i < dk k)%nat -> xlev u k i = kopp (dmv (Rk k) (xlev u (k - 1)) i).
Proof.
  intros PS PN u P H k i Hk. remember (Z.to_nat (N - k)) as n eqn:En. revert k Hk En i. induction n as [|n IH]; intros k Hk En i Hi.
  - assert (k = N) by lia. subst k. destruct (nth_error (lev N) i) as [q|] eqn:E; [|apply nth_error_None in E; unfold dk in Hi; lia].
    pose proof (H N q Hk (nth_error_In _ _ E)) as R. rewrite (row_split u N q P ltac:(lia) (nth_error_In _ _ E)) in R.
    rewrite (proj2 (Z.ltb_lt 0 N)), (Z.ltb_irrefl N) in R by lia.
    rewrite <- (R_acts PS N _ i q Hk E), (Z.ltb_irrefl N). unfold xlev at 1. rewrite E.
    transitivity (kadd (kadd (u (unk (e_index q))) (kadd (part (N - 1) (xlev u (N - 1)) q) k0)) (kopp (kadd (part (N - 1) (xlev u (N - 1)) q) k0))); [ring|rewrite R; ring].
  - destruct (step_ok k (Rk (k + 1)) ltac:(lia) (Rk_ok (k + 1) ltac:(lia))) as [X [A [EX [EA [RX [CX [RA [CA [L SX]]]]]]]]].
    pose proof (PN k X ltac:(lia) EX) as NS.
    assert (Z0 : kadd (xlev u k i) (dmv (Rk k) (xlev u (k - 1)) i) = k0); [|transitivity (kadd (kadd (xlev u k i) (dmv (Rk k) (xlev u (k - 1)) i)) (kopp (dmv (Rk k) (xlev u (k - 1)) i))); [ring|rewrite Z0; ring]].
    apply (NS (fun i => kadd (xlev u k i) (dmv (Rk k) (xlev u (k - 1)) i))); [|rewrite CX; exact Hi].
    intros j Hj. rewrite RX in Hj. destruct (nth_error (lev k) j) as [q|] eqn:E; [|apply nth_error_None in E; unfold dk in Hj; lia].
    pose proof (lev_all k q ltac:(lia) (nth_error_In _ _ E)) as Aq.
    rewrite (dmv_add X (xlev u k) (dmv (Rk k) (xlev u (k - 1))) j).
    rewrite !(SX _ j q E). pose proof (H k q Hk (nth_error_In _ _ E)) as R. rewrite (row_split u k q P ltac:(lia) (nth_error_In _ _ E)) in R.
    rewrite (proj2 (Z.ltb_lt 0 k)), (proj2 (Z.ltb_lt k N)) in R by lia.
    pose proof (R_acts PS k (xlev u (k - 1)) j q Hk E) as RA2. rewrite (proj2 (Z.ltb_lt k N)) in RA2 by lia. rewrite <- RA2.
    rewrite (part_ext (k + 1) (xlev u (k + 1)) (fun i => kopp (dmv (Rk (k + 1)) (xlev u k) i)) q) in R.
    + rewrite part_opp in R. unfold xlev at 1. rewrite E.
      change (fun i => dmv (Rk (k + 1)) (xlev u k) i) with (dmv (Rk (k + 1)) (xlev u k)) in R. rewrite <- R. ring.
    + lia.
    + exact Aq.
    + intros l Hl. rewrite (IH (k + 1)) by (first [lia|exact Hl]). replace (k + 1 - 1) with k by lia. reflexivity.
Qed.

Lemma dense_nonsingular : pivots_solved -> pivots_nonsingular -> (exists D, denominator e ls s = Ok D /\ D <> k0) ->
  forall u, proper u -> (forall q, In q (all_eqs s) -> row e u q = k0) -> forall q, In q (all_eqs s) -> u (unk (e_index q)) = k0.
Proof.
  intros PS PN [D [ED ND]] u P H. destruct den_ok as [D' [E1 [_ HD]]]. assert (D' = D) by congruence. subst D'.
  pose proof (so_N s O) as NP. fold N in NP.
  pose proof (forced PS PN u P (fun k q Hk Hq => H q (lev_all k q ltac:(lia) Hq))) as FB.
  assert (Z : forall n k i, n = Z.to_nat k -> 0 <= k <= N -> (i < dk k)%nat -> xlev u k i = k0).
  { induction n as [|n IH]; intros k i En Hk Hi.
    - assert (k = 0) by lia. subst k. destruct (nth_error (lev 0) i) as [q|] eqn:E; [|apply nth_error_None in E; unfold dk in Hi; lia].
      pose proof (nth_error_In _ _ E) as Hq. pose proof (lev_all 0 q ltac:(lia) Hq) as Aq.
      pose proof (H q Aq) as R. rewrite (row_split u 0 q P ltac:(lia) Hq), (proj2 (Z.ltb_lt 0 N) NP) in R. cbn [Z.ltb Z.compare] in R.
      assert (C0 : forall j, (j < dk 0)%nat -> xlev u 0 j = u (unk (e_index q))).
      { intros j Hj. unfold xlev. destruct (nth_error (lev 0) j) as [q'|] eqn:E'; [|apply nth_error_None in E'; unfold dk in Hj; lia].
        rewrite (lev0_one q' q (nth_error_In _ _ E') Hq). reflexivity. }
      rewrite (part_ext (0 + 1) (xlev u (0 + 1)) (fun i => kopp (dmv (Rk 1) (fun _ => u (unk (e_index q))) i)) q) in R.
      + rewrite part_opp in R. change (fun i => dmv (Rk 1) (fun _ => u (unk (e_index q))) i) with (dmv (Rk 1) (fun _ : nat => u (unk (e_index q)))) in R.
        assert (R' : kmul D (u (unk (e_index q))) = k0) by (rewrite <- (HD _ q Hq), <- R; change (0 + 1) with 1; ring).
        rewrite (C0 i Hi). transitivity (kmul (kinv D) (kmul D (u (unk (e_index q))))).
        * transitivity (kmul (kmul (kinv D) D) (u (unk (e_index q)))); [rewrite kinv_l by exact ND; ring|ring].
        * rewrite R'. ring.
      + lia.
      + exact Aq.
      + intros j Hj. rewrite (FB (0 + 1) j) by (first [lia|exact Hj]). f_equal. apply dmv_ext. intros l Hl. apply C0.
        rewrite (lo_cols 1 _ (Rk_ok 1 ltac:(lia))) in Hl. exact Hl.
    - rewrite (FB k i) by (first [lia|exact Hi]). rewrite (dmv_ext _ _ (fun _ => k0)).
      + unfold dmv. rewrite ksum_zero; [ring|intros; ring].
      + intros j Hj. rewrite (lo_cols _ _ (Rk_ok k ltac:(lia))) in Hj. apply (IH (k - 1) j); [lia|lia|exact Hj]. }
  intros q Hq. destruct (all_lev q Hq) as [k [Hk Hqk]]. apply In_nth_error in Hqk. destruct Hqk as [i Hi].
  assert (Li : (i < dk k)%nat) by (unfold dk; apply nth_error_Some; congruence).
  pose proof (Z (Z.to_nat k) k i eq_refl Hk Li) as X. unfold xlev in X. rewrite Hi in X. exact X.
Qed.
End Levels.

Section Compare.
Context {T : Type} {F : cfield}.
Add Ring KRcmp : (klaws F).
Variable e : env T F.
Variable s : system T.
Hypothesis O : sys_ok s.
Variable ls : mat F -> mat F -> nat -> nat -> F.

Lemma dense_is_sparse : pivots_solved e s ls -> forall sp X v, scaffold e (full_basis s) s = Ok (X, v) -> nonsingular X -> solves X v (sp X v) ->
  exists D, denominator e ls s = Ok D /\ D <> k0 /\ dense_solve e ls s = sparse_solve e sp s.
Proof.
  intros PS sp X v ES NS SV. destruct (dense_extends e s O ls PS) as [D [E1 [E2 [E3 E4]]]]. exists D. split; [exact E1|].
  pose proof ES as ES0. rewrite (scaffold_ok e s O) in ES0. injection ES0 as EX EV.
  assert (ND : D <> k0).
  { intros ZD. destruct (E4 ZD) as [u [Pu [Hu Gu]]]. destruct (green_pos s O) as [q [Hq [_ [Eg _]]]]. apply nth_error_In in Hq.
    apply (k1_neq_k0 F). rewrite <- (Gu q Hq Eg). rewrite <- EX in NS. apply (proj1 (nonsingular_iff e s O) NS u Pu Hu q Hq). }
  split; [exact ND|]. destruct (E3 ND) as [u [Pu [Su Gu]]].
  destruct (sparse_result e s O sp X v ES SV) as [g [E5 [_ H5]]]. rewrite E2, E5. f_equal.
  apply (g_value_unique s O u); [exact Gu|apply H5; assumption].
Qed.

Lemma pivots_ok : lsolve_ok ls -> pivots_nonsingular e s ls -> pivots_solved e s ls.
Proof.
  intros LO PN k X A Hk EX EA. destruct (step_ok e s O ls k (Rk e s ls (k + 1)) Hk (Rk_ok e s O ls (k + 1) ltac:(lia))) as [X' [A' [EX' [EA' [RX [CX [RA [CA _]]]]]]]].
  assert (X' = X) by congruence. assert (A' = A) by congruence. subst X' A'. apply LO; [congruence|congruence|apply (PN k X Hk EX)].
Qed.

Lemma pivots_result : forall sp D, lsolve_ok ls -> spsolve_ok sp -> pivots_nonsingular e s ls ->
  denominator e ls s = Ok D -> D <> k0 ->
  exists X v, scaffold e (full_basis s) s = Ok (X, v) /\ nonsingular X /\ dense_solve e ls s = sparse_solve e sp s.
Proof.
  intros sp D LO SO PN ED ND. pose proof (pivots_ok LO PN) as PS. eexists. eexists. split; [apply (scaffold_ok e s O)|].
  assert (NS : nonsingular (mkCoo (NN s) (NN s) (triplets e s))).
  { apply (nonsingular_iff e s O). apply (dense_nonsingular e s O ls PS PN). exists D. auto. }
  split; [exact NS|]. destruct (dense_is_sparse PS sp _ _ (scaffold_ok e s O) NS (SO (mkCoo (NN s) (NN s) (triplets e s)) (mkCoo (NN s) 1 [((NN s - 1)%nat, 0%nat, G0 e)]) eq_refl eq_refl NS)) as [D' [_ [_ H]]]. exact H.
Qed.
End Compare.
