(** C26 and C39. *)
From Coq Require Import String ZArith List Bool Lia Reals Lra FinFun.
From Verif Require Import Base Space Utils Spec_mpi Utils_proofs.
Import ListNotations.
Open Scope list_scope.
Open Scope Z_scope.

(** C39.  [uuid] are the names drawn so far and later; they are different and
    not among the files [d0] already in the directory.  Whatever was there
    stays; the new files in order of writing and the queue give the values. *)
Theorem C39_history : forall A (uuid : nat -> string) nbuff (d0 : folder A) ops,
  (forall i j, uuid i = uuid j -> i = j) -> (forall i, ~ In (append (uuid i) ".pkl") (map fst d0)) ->
  let s := buffer_run uuid (mkBst (b_init nbuff) d0 0) ops in
  (exists fs, bs_dir s = d0 ++ fs /\ List.concat (map snd fs) ++ b_queue (bs_buf s) = op_values ops /\
     NoDup (map fst fs) /\ forall f, In f fs -> 1 <= len (snd f) <= Z.max 1 nbuff) /\
  b_counter (bs_buf s) = len (b_queue (bs_buf s)) /\ len (b_queue (bs_buf s)) < Z.max 1 nbuff.
Proof.
  intros A uuid nbuff d0 ops I F s. destruct (run_inv uuid I nbuff d0 ops F) as [B1 B2 B3 [fs [F1 [F2 [F3 F4]]]]]. fold s in B1, B2, B3, F1, F2, F3.
  split; [|split; [exact B2|lia]]. exists fs. split; [exact F1|]. split; [exact F2|]. split; [|exact F4]. rewrite F3.
  apply FinFun.Injective_map_NoDup; [|apply seq_NoDup]. intros i j E. apply I. exact (append_inj_r _ _ _ E).
Qed.
Print Assumptions C39_history.

(** After a flush nothing is pending, and all values are in files. *)
Theorem C39_flush : forall A (uuid : nat -> string) nbuff (d0 : folder A) ops,
  (forall i j, uuid i = uuid j -> i = j) -> (forall i, ~ In (append (uuid i) ".pkl") (map fst d0)) ->
  let s := buffer_run uuid (mkBst (b_init nbuff) d0 0) (ops ++ [Flush]) in
  b_queue (bs_buf s) = [] /\ exists fs, bs_dir s = d0 ++ fs /\ List.concat (map snd fs) = op_values ops.
Proof.
  intros A uuid nbuff d0 ops I F s.
  assert (Q : b_queue (bs_buf s) = []).
  { unfold s, buffer_run. rewrite fold_left_app. cbn [fold_left buffer_step]. apply flush_empties. apply (run_inv uuid I nbuff d0 ops F). }
  split; [exact Q|]. destruct (run_inv uuid I nbuff d0 (ops ++ [Flush]) F) as [_ _ _ [fs [F1 [F2 _]]]]. fold s in F1, F2.
  rewrite Q, app_nil_r in F2. exists fs. split; [exact F1|]. rewrite F2. unfold op_values. rewrite flat_map_app. apply app_nil_r.
Qed.
Print Assumptions C39_flush.

(** Without explicit flushes every file holds exactly [nbuff] values (one, if
    [nbuff] is smaller). *)
Theorem C39_full : forall A (uuid : nat -> string) nbuff (d0 : folder A) vals,
  (forall i j, uuid i = uuid j -> i = j) -> (forall i, ~ In (append (uuid i) ".pkl") (map fst d0)) ->
  exists fs, bs_dir (buffer_run uuid (mkBst (b_init nbuff) d0 0) (map Put vals)) = d0 ++ fs /\ forall f, In f fs -> len (snd f) = Z.max 1 nbuff.
Proof. intros A uuid nbuff d0 vals I F. exact (puts_full uuid I nbuff d0 vals F). Qed.
Print Assumptions C39_full.

Fixpoint tally (n : nat) : string := match n with O => EmptyString | S m => append "a" (tally m) end.
Lemma tally_inj : forall i j, tally i = tally j -> i = j.
Proof.
  induction i as [|i IH]; intros [|j] E; try reflexivity; try discriminate E. f_equal. apply IH.
  cbn [tally append] in E. congruence.
Qed.

Example C39_nonvacuous :
  (forall i, ~ In (append (tally i) ".pkl") (map fst [("old"%string, [7])])) /\
  buffer_run tally (mkBst (b_init 2) [("old"%string, [7])] 0) [Put 1; Put 2; Put 3; Flush; Flush; Put 4] =
  mkBst (mkBuffer 2 1 [4]) [("old"%string, [7]); (".pkl"%string, [1; 2]); ("a.pkl"%string, [3])] 2.
Proof.
  split; [|reflexivity]. intros i [E|[]]. destruct i as [|i]; discriminate E.
Qed.

(** The hypothesis on the names is needed: a name drawn twice loses values. *)
Theorem C39_collision_refuted : exists (uuid : nat -> string) (ops : list (buffer_op Z)),
  let s := buffer_run uuid (mkBst (b_init 1) [] 0) ops in
  List.concat (map snd (bs_dir s)) ++ b_queue (bs_buf s) <> op_values ops.
Proof. exists (fun _ => "0"%string), [Put 1; Put 2]. discriminate. Qed.
Print Assumptions C39_collision_refuted.

(** C26.  All successful outcomes: one axis unchanged, the other continued by
    the least number of points. *)
Theorem C26_minimal : forall T (G : gridops T) k w B ext k' w', 1 <= B ->
  padded_kw G k w B ext = Ok (k', w') <->
  (1 < len w /\ k' = k /\ exists n, least_pad (len k) (len w) B n /\ n < ext /\ continues G w w' n) \/
  (len w <= 1 /\ w' = w /\ exists n, least_pad (len w) (len k) B n /\ n < ext /\ continues G k k' n).
Proof. intros T G k w B ext k' w' HB. exact (padded_kw_ok G k w B ext k' w' HB). Qed.
Print Assumptions C26_minimal.

(** The padded grid is divisible, and the given points come first. *)
Theorem C26_divisible : forall T (G : gridops T) k w B ext k' w', 1 <= B -> padded_kw G k w B ext = Ok (k', w') ->
  (B | len k' * len w') /\ firstn (List.length k) k' = k /\ firstn (List.length w) w' = w.
Proof.
  intros T G k w B ext k' w' HB E. apply C26_minimal in E; [|exact HB].
  destruct E as [[_ [-> [n [[Hn [L _]] [_ [i [p [q [X [C1 [C2 _]]]]]]]]]]]|[_ [-> [n [[Hn [L _]] [_ [i [p [q [X [C1 [C2 _]]]]]]]]]]]].
  - split; [|split; [apply firstn_all|exact C2]]. unfold len in *. rewrite C1, Nat2Z.inj_add, Z2Nat.id by lia. exact L.
  - split; [|split; [exact C2|apply firstn_all]]. unfold len in *. rewrite C1, Nat2Z.inj_add, Z2Nat.id by lia. rewrite Z.mul_comm. exact L.
Qed.
Print Assumptions C26_divisible.

(** How many points that is. *)
Theorem C26_amount : forall fixed l B n, 1 <= B -> (least_pad fixed l B n <-> n = (- l) mod (B / Z.gcd fixed B)) /\ (least_pad fixed l B n -> n < B).
Proof.
  intros f l B n HB. split; [split|].
  - intros L. exact (least_pad_unique f l B n _ L (least_pad_closed f l B HB)).
  - intros ->. exact (least_pad_closed f l B HB).
  - exact (least_pad_bound f l B n HB).
Qed.
Print Assumptions C26_amount.

(** No failure for up to [ext] (by default 1000) brigades, if one axis has two
    points; the only exception otherwise is IndexError. *)
Theorem C26_total : forall T (G : gridops T) k w B ext, 1 <= B <= ext -> 1 < len w \/ 1 < len k -> exists r, padded_kw G k w B ext = Ok r.
Proof. intros T G k w B ext HB H. exact (padded_kw_total G k w B ext HB H). Qed.
Print Assumptions C26_total.

Theorem C26_errors : forall T (G : gridops T) k w B ext x, padded_kw G k w B ext = Err x -> x = IndexError.
Proof. intros T G k w B ext x. exact (padded_kw_err G k w B ext x). Qed.
Print Assumptions C26_errors.

(** Increasing grids stay increasing, so the new points are outside the range. *)
Theorem C26_increasing : forall w w' n, 0 <= n -> increasing w -> continues Rgrid w w' n -> increasing w'.
Proof.
  intros w w' n Hn I [init [p [q [X [C1 [C2 C3]]]]]].
  assert (LW : List.length w = (List.length init + 2)%nat) by (rewrite X, app_length; reflexivity).
  assert (PQ : (p < q)%R).
  { specialize (I (List.length init) (S (List.length init)) 0%R ltac:(lia)). rewrite X in I. rewrite !app_nth2 in I by lia.
    rewrite Nat.sub_diag in I. replace (S (List.length init) - List.length init)%nat with 1%nat in I by lia. exact I. }
  assert (NQ : forall d, nth (List.length w - 1) w d = q).
  { intros d. rewrite LW, X. rewrite app_nth2 by lia. replace (List.length init + 2 - 1 - List.length init)%nat with 1%nat by lia. reflexivity. }
  assert (NI : forall i d, (i < List.length w)%nat -> nth i w' d = nth i w d).
  { intros i d Hi. rewrite <- (firstn_skipn (List.length w) w') at 1. rewrite C2. apply app_nth1. exact Hi. }
  cbn [Rgrid g_add g_sub g_scale] in C3.
  assert (NE : forall j d, (List.length w <= j < List.length w')%nat -> nth j w' d = (q + (IZR (Z.of_nat (j - List.length w)) + 1) * (q - p))%R).
  { intros j d Hj. specialize (C3 (Z.of_nat (j - List.length w)) d ltac:(lia)). rewrite Nat2Z.id in C3.
    replace (List.length w + (j - List.length w))%nat with j in C3 by lia. rewrite C3, plus_IZR. reflexivity. }
  intros i j d Hij. destruct (Nat.lt_ge_cases j (List.length w)) as [Hj|Hj].
  - rewrite !NI by lia. apply I. lia.
  - rewrite (NE j) by lia. assert (PZ : (0 <= IZR (Z.of_nat (j - List.length w)))%R) by (apply IZR_le; lia).
    destruct (Nat.lt_ge_cases i (List.length w)) as [Hi|Hi].
    + rewrite NI by exact Hi. assert (QI : (nth i w d <= q)%R).
      { destruct (Nat.eq_dec i (List.length w - 1)) as [->|Ni]; [rewrite NQ; lra|]. rewrite <- (NQ d). left. apply I. lia. }
      nra.
    + rewrite (NE i) by lia. assert (L : (IZR (Z.of_nat (i - List.length w)) < IZR (Z.of_nat (j - List.length w)))%R) by (apply IZR_lt; lia). nra.
Qed.
Print Assumptions C26_increasing.

(** Three momenta, five frequencies and four brigades: three more frequencies. *)
Example C26_nonvacuous : padded_kw Zgrid [0; 1; 2] [10; 20; 30; 40; 50] 4 1000 = Ok ([0; 1; 2], [10; 20; 30; 40; 50; 60; 70; 80]) /\
  least_pad 3 5 4 3 /\ padded_kw Zgrid [0; 1; 2] [5] 2 1000 = Ok ([0; 1; 2; 3], [5]).
Proof. split; [vm_compute; reflexivity|]. split; [|vm_compute; reflexivity]. apply C26_amount; [lia|reflexivity]. Qed.

(** A single point cannot be padded, for any number of brigades. *)
Theorem C26_one_point_fails : forall T (G : gridops T) (k w : T) B, 1 <= B <= 1000 -> padded_kw G [k] [w] B 1000 = Err IndexError.
Proof.
  intros T G k w B HB. unfold padded_kw. change (1 <? len [w]) with false. cbn [bind].
  destruct (num_pads (len [w]) (len [k]) B 1000) as [n|x] eqn:E; [reflexivity|]. apply num_pads_err in E. subst. reflexivity.
Qed.
Print Assumptions C26_one_point_fails.

(** With more than 1000 brigades the search may fail. *)
Theorem C26_many_refuted : exists k w B, padded_kw Zgrid k w B 1000 = Err IndexError /\ 1 < len k /\ 1 < len w.
Proof.
  exists [0; 1], [0; 1], 5000. split; [|cbn; lia]. destruct (padded_kw Zgrid [0; 1] [0; 1] 5000 1000) as [[k' w']|x] eqn:E.
  - exfalso. apply C26_minimal in E; [|lia]. destruct E as [[_ [_ [n [L [H _]]]]]|[H _]]; [|cbn in H; lia].
    pose proof (proj1 (proj1 (C26_amount _ _ 5000 n ltac:(lia))) L) as E. vm_compute in E. lia.
  - apply C26_errors in E. congruence.
Qed.
Print Assumptions C26_many_refuted.
