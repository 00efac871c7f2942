(** Lemmas on the sparse matrix (C22, C21). *)
From Coq Require Import String ZArith List Bool Lia Permutation Ring.
From Verif Require Import Base NdArray NdArray_proofs Config Spec Model Space Spec_space Space_proofs Count_proofs Render Render_proofs Term Equation System Legal_proofs
  Spec_engine Engine_proofs Order_proofs Ring Coef Spec_eom Solvers Spec_solve Sysok_proofs Eom_proofs.
Import ListNotations.
Open Scope list_scope.
Open Scope Z_scope.

Section Sums.
Context {K : cring}.
Add Ring KRs : (klaws K).

Lemma ksum_cons : forall x (l : list K), ksum (x :: l) = kadd x (ksum l).
Proof. reflexivity. Qed.

Lemma ksum_perm : forall (l l' : list K), Permutation l l' -> ksum l = ksum l'.
Proof. induction 1; rewrite ?ksum_cons; try congruence; ring. Qed.

Lemma ksum_zero : forall {A} (f : A -> K) l, (forall x, In x l -> f x = k0) -> ksum (map f l) = k0.
Proof.
  intros A f l H. induction l as [|x r IH]; [reflexivity|]. cbn [map]. rewrite ksum_cons, (H x (or_introl eq_refl)), IH.
  - ring. - intros; apply H; simpl; auto.
Qed.

Lemma ksum_add : forall {A} (f g : A -> K) l, ksum (map (fun x => kadd (f x) (g x)) l) = kadd (ksum (map f l)) (ksum (map g l)).
Proof. induction l as [|x r IH]; [simpl; ring|]. cbn [map]. rewrite !ksum_cons, IH. ring. Qed.

Lemma ksum_scal : forall {A} (f : A -> K) c l, ksum (map (fun x => kmul c (f x)) l) = kmul c (ksum (map f l)).
Proof. induction l as [|x r IH]; [simpl; ring|]. cbn [map]. rewrite !ksum_cons, IH. ring. Qed.

Lemma ksum_scal_r : forall {A} (f : A -> K) c l, ksum (map (fun x => kmul (f x) c) l) = kmul (ksum (map f l)) c.
Proof. induction l as [|x r IH]; [simpl; ring|]. cbn [map]. rewrite !ksum_cons, IH. ring. Qed.

Lemma ksum_ext : forall {A} (f g : A -> K) l, (forall x, In x l -> f x = g x) -> ksum (map f l) = ksum (map g l).
Proof. intros A f g l H. f_equal. apply map_ext_in. exact H. Qed.

Lemma ksum_swap : forall {A B} (f : A -> B -> K) l l',
  ksum (map (fun x => ksum (map (f x) l')) l) = ksum (map (fun y => ksum (map (fun x => f x y) l)) l').
Proof.
  intros A B f l l'. induction l as [|x r IH].
  - simpl. symmetry. apply ksum_zero. reflexivity.
  - cbn [map]. rewrite ksum_cons, IH. rewrite <- ksum_add. apply ksum_ext. intros y _. reflexivity.
Qed.

Lemma mv_sub : forall tr (x y : nat -> K) j, mv tr (fun l => ksub (x l) (y l)) j = ksub (mv tr x j) (mv tr y j).
Proof.
  intros tr x y j. unfold mv. match goal with |- context [filter ?f ?t] => generalize (filter f t) end. intros l. induction l as [|p r IH]; [cbn [map ksum fold_right]; ring|].
  cbn [map]. rewrite !ksum_cons, IH. ring.
Qed.

(** A sum with a single index selected. *)
Lemma ksum_pick : forall (f : nat -> K) n a j, (a <= j < a + n)%nat ->
  ksum (map (fun i => if Nat.eqb i j then f i else k0) (seq a n)) = f j.
Proof.
  induction n as [|n IH]; intros a j H; [lia|]. cbn [seq map]. rewrite ksum_cons. destruct (Nat.eqb_spec a j) as [->|N].
  - rewrite ksum_zero; [ring|]. intros x Hx. apply in_seq in Hx. destruct (Nat.eqb_spec x j); [lia|reflexivity].
  - rewrite IH by lia. ring.
Qed.

(** Regrouping contributions by index. *)
Lemma ksum_group : forall (l : list (nat * K)) (x : nat -> K) n, (forall p, In p l -> (fst p < n)%nat) ->
  ksum (map (fun p => kmul (snd p) (x (fst p))) l) =
  ksum (map (fun j => kmul (ksum (map snd (filter (fun p => Nat.eqb (fst p) j) l))) (x j)) (seq 0 n)).
Proof.
  intros l x n H. induction l as [|p r IH].
  - symmetry. apply ksum_zero. intros; simpl. ring.
  - cbn [map]. rewrite ksum_cons, IH by (intros; apply H; simpl; auto).
    rewrite <- (ksum_pick (fun j => kmul (snd p) (x j)) n 0 (fst p)) by (pose proof (H p (or_introl eq_refl)); lia).
    rewrite <- ksum_add. apply ksum_ext. intros j _. cbn [filter]. rewrite Nat.eqb_sym.
    destruct (Nat.eqb (fst p) j); [cbn [map]; rewrite ksum_cons|]; ring.
Qed.

(** * [dadd] *)
Lemma dadd_keys : forall j (c : K) d x, In x (map fst (dadd j c d)) <-> x = j \/ In x (map fst d).
Proof.
  intros j c d x. induction d as [|[j' c'] r IH]; cbn [dadd map fst].
  - simpl. intuition.
  - destruct (Nat.eqb_spec j j') as [<-|N]; cbn [map fst In]; [intuition|]. rewrite IH. intuition.
Qed.

Lemma dadd_nodup : forall j (c : K) d, NoDup (map fst d) -> NoDup (map fst (dadd j c d)).
Proof.
  intros j c d H. induction d as [|[j' c'] r IH]; cbn [dadd map fst]; [repeat constructor; intros []|].
  cbn [map fst] in H. inversion H as [|? ? Hn H']; subst. destruct (Nat.eqb_spec j j') as [<-|N]; cbn [map fst]; constructor; auto.
  rewrite dadd_keys. intros [E|I]; [congruence|contradiction].
Qed.

Lemma dadd_sum : forall j (c : K) d x, ksum (map (fun p => kmul (snd p) (x (fst p))) (dadd j c d)) =
  kadd (kmul c (x j)) (ksum (map (fun p => kmul (snd p) (x (fst p))) d)).
Proof.
  intros j c d x. induction d as [|[j' c'] r IH]; cbn [dadd map fst snd]; [reflexivity|].
  destruct (Nat.eqb_spec j j') as [<-|N]; cbn [map fst snd]; rewrite !ksum_cons; [ring|]. rewrite IH. ring.
Qed.
End Sums.

Section Rows.
Context {T : Type} {K : cring}.
Add Ring KRr : (klaws K).
Variable e : env T K.
Variable basis : sdict nat.
Variable pos : string -> nat.

Lemma row_acc : forall ts d, (forall t, In t ts -> sget (tid t) basis = Some (pos (tid t))) -> NoDup (map fst d) ->
  exists d', foldM (fun d t => j <- lookup basis (tid t) ;; Ok (dadd j (coefficient e t) d)) ts d = Ok d' /\
    NoDup (map fst d') /\ (forall j, In j (map fst d') <-> In j (map fst d) \/ exists t, In t ts /\ pos (tid t) = j) /\
    forall x, ksum (map (fun p => kmul (snd p) (x (fst p))) d') =
      kadd (ksum (map (fun p => kmul (snd p) (x (fst p))) d)) (ksum (map (fun t => kmul (coefficient e t) (x (pos (tid t)))) ts)).
Proof.
  induction ts as [|t r IH]; intros d H ND; cbn [foldM].
  - exists d. split; [reflexivity|]. split; [exact ND|]. split.
    + intros j. split; [auto|]. intros [I|[t [[] _]]]. exact I.
    + intros x. simpl. ring.
  - unfold lookup at 1. rewrite (H t (or_introl eq_refl)). cbn [bind].
    destruct (IH (dadd (pos (tid t)) (coefficient e t) d)) as [d' [E [N' [Kd S]]]]; [intros; apply H; simpl; auto|apply dadd_nodup; exact ND|].
    exists d'. split; [exact E|]. split; [exact N'|]. split.
    + intros j. rewrite Kd, dadd_keys. split.
      * intros [[->|I]|[t' [I E']]]; [right; exists t; simpl; auto|auto|right; exists t'; simpl; auto].
      * intros [I|[t' [[<-|I] E']]]; [auto|left; left; auto|right; exists t'; auto].
    + intros x. rewrite S, dadd_sum. cbn [map]. rewrite ksum_cons. ring.
Qed.
End Rows.

Section Matrix.
Context {T : Type} {K : cring}.
Add Ring KRm : (klaws K).
Variable e : env T K.
Variable s : system T.
Hypothesis O : sys_ok s.

Definition fpos (x : string) : nat := match sget x (full_basis s) with Some i => i | None => 0%nat end.
Definition NN : nat := List.length (all_eqs s).

Lemma fb_spec : forall x i, sget x (full_basis s) = Some i <-> nth_error (index_ids (all_eqs s)) i = Some x.
Proof. intros. unfold full_basis. apply number_ids_spec. apply (so_nodup s O). Qed.

Lemma fpos_spec : forall x, In x (index_ids (all_eqs s)) ->
  sget x (full_basis s) = Some (fpos x) /\ nth_error (index_ids (all_eqs s)) (fpos x) = Some x /\ (fpos x < NN)%nat.
Proof.
  intros x H. apply In_nth_error in H. destruct H as [i Hi]. pose proof (proj2 (fb_spec x i) Hi) as E.
  unfold fpos. rewrite E. split; [reflexivity|]. split; [exact Hi|].
  assert (L : (i < List.length (index_ids (all_eqs s)))%nat) by (apply nth_error_Some; congruence).
  unfold index_ids in L. rewrite map_length in L. exact L.
Qed.

Lemma fpos_nth : forall i q, nth_error (all_eqs s) i = Some q -> fpos (tid (e_index q)) = i.
Proof.
  intros i q H. unfold fpos. rewrite (proj2 (fb_spec (tid (e_index q)) i)); [reflexivity|].
  unfold index_ids. rewrite nth_error_map, H. reflexivity.
Qed.

Lemma term_ids : forall q t, In q (all_eqs s) -> In t (e_terms q ++ [e_index q]) -> In (tid t) (index_ids (all_eqs s)).
Proof.
  intros q t Hq Ht. apply in_app_iff in Ht. destruct Ht as [Ht|[<-|[]]]; [apply (so_closed s O q t Hq Ht)|].
  unfold index_ids. apply in_map_iff. exists q. auto.
Qed.

(** The row dictionary of equation [q]. *)
Definition rowd (q : equation T) : list (nat * K) :=
  match foldM (fun d t => j <- lookup (full_basis s) (tid t) ;; Ok (dadd j (coefficient e t) d)) (e_terms q ++ [e_index q]) [] with
  | Ok d => d | Err _ => [] end.

Lemma rowd_spec : forall q, In q (all_eqs s) ->
  sparse_row e (full_basis s) q = Ok (map (fun p => (fpos (tid (e_index q)), fst p, snd p)) (rowd q)) /\
  NoDup (map fst (rowd q)) /\
  (forall j, In j (map fst (rowd q)) <-> exists t, In t (e_terms q ++ [e_index q]) /\ fpos (tid t) = j) /\
  forall x, ksum (map (fun p => kmul (snd p) (x (fst p))) (rowd q)) =
    kadd (x (fpos (tid (e_index q)))) (ksum (map (fun t => kmul (coefficient e t) (x (fpos (tid t)))) (e_terms q))).
Proof.
  intros q Hq. destruct (row_acc e (full_basis s) fpos (e_terms q ++ [e_index q]) []) as [d [E [ND [Kd S]]]].
  - intros t Ht. apply fpos_spec. apply (term_ids q t Hq Ht).
  - constructor.
  - assert (R : rowd q = d) by (unfold rowd; rewrite E; reflexivity). rewrite R. split; [|split; [exact ND|split]].
    + unfold sparse_row. unfold lookup at 1. rewrite (proj1 (fpos_spec _ (term_ids q (e_index q) Hq ltac:(apply in_app_iff; right; left; reflexivity)))).
      cbn [bind]. rewrite E. reflexivity.
    + intros j. rewrite Kd. split; [intros [[]|H]; exact H|auto].
    + intros x. rewrite S. rewrite map_app, ksum_app. cbn [map ksum fold_right].
      assert (C1 : coefficient e (e_index q) = k1) by (unfold coefficient; rewrite (so_idx s O q Hq); reflexivity).
      rewrite C1. ring.
Qed.

Definition blocks_in_order : list (equation T) :=
  flat_map (fun n => match assocZ n (s_eqs s) with Some es => es | None => [] end) (range 0 (total_bosons s + 1)).

Definition triplets : list triplet :=
  flat_map (fun q => map (fun p => (fpos (tid (e_index q)), fst p, snd p)) (rowd q)) blocks_in_order.

Lemma In_order : forall q, In q blocks_in_order <-> In q (all_eqs s).
Proof.
  intros q. unfold blocks_in_order. rewrite in_flat_map, (In_all s). split.
  - intros [n [Hn Hq]]. apply In_range in Hn. destruct (level_ex s O n ltac:(lia)) as [es [H1 H2]]. rewrite H2 in Hq. exists n, es. auto.
  - intros [n [es [H1 H2]]]. exists n. pose proof (level_range s O n es H1). split; [apply In_range; lia|].
    destruct (level_ex s O n ltac:(lia)) as [es' [H1' H2']]. rewrite H2', <- (level_unique s O n es es' H1 H1'). exact H2.
Qed.

Lemma order_nodup : NoDup (map (fun q => tid (e_index q)) blocks_in_order).
Proof.
  unfold blocks_in_order. rewrite flat_map_concat_map, concat_map, map_map, <- flat_map_concat_map.
  apply NoDup_flat_map; [apply NoDup_range| |].
  - intros n Hn. apply In_range in Hn. destruct (level_ex s O n ltac:(lia)) as [es [H1 H2]]. rewrite H2.
    apply (level_NoDup s O n es H1).
  - intros n n' x Hn Hn' Hx Hx'. apply In_range in Hn, Hn'.
    destruct (level_ex s O n ltac:(lia)) as [es [H1 H2]]. destruct (level_ex s O n' ltac:(lia)) as [es' [H1' H2']].
    rewrite H2 in Hx. rewrite H2' in Hx'. apply in_map_iff in Hx, Hx'.
    destruct Hx as [q [<- Hq]]. destruct Hx' as [q' [E Hq']].
    rewrite <- (proj1 (so_level s O n es q H1 Hq)), <- (proj1 (so_level s O n' es' q' H1' Hq')).
    assert (A : q = q').
    { assert (Aq : In q (all_eqs s)) by (apply In_all; exists n, es; auto).
      assert (Aq' : In q' (all_eqs s)) by (apply In_all; exists n', es'; auto).
      apply In_nth_error in Aq, Aq'. destruct Aq as [i Hi]. destruct Aq' as [i' Hi'].
      pose proof (fpos_nth i q Hi) as F1. pose proof (fpos_nth i' q' Hi') as F2. rewrite E in F2. congruence. }
    rewrite A. reflexivity.
Qed.

Lemma matrix_ok : sparse_matrix e (full_basis s) s = Ok triplets.
Proof.
  unfold sparse_matrix.
  rewrite mapM_ok with (g := fun n => flat_map (fun q => map (fun p => (fpos (tid (e_index q)), fst p, snd p)) (rowd q))
      (match assocZ n (s_eqs s) with Some es => es | None => [] end)).
  - cbn [bind]. f_equal. unfold triplets, blocks_in_order. rewrite <- flat_map_concat_map.
    induction (range 0 (total_bosons s + 1)) as [|n r IH]; [reflexivity|]. cbn [flat_map]. rewrite IH, flat_map_app. reflexivity.
  - intros n Hn. apply In_range in Hn. destruct (level_ex s O n ltac:(lia)) as [es [H1 H2]]. unfold equations_at. rewrite H2. cbn [bind].
    rewrite mapM_ok with (g := fun q => map (fun p => (fpos (tid (e_index q)), fst p, snd p)) (rowd q)).
    + cbn [bind]. rewrite <- flat_map_concat_map. reflexivity.
    + intros q Hq. apply rowd_spec. apply In_all. exists n, es. auto.
Qed.

Lemma filter_rows : forall L q, NoDup (map (fun q => tid (e_index q)) L) -> (forall q', In q' L -> In q' (all_eqs s)) -> In q L ->
  filter (fun p => Nat.eqb (fst (fst p)) (fpos (tid (e_index q))))
    (flat_map (fun q => map (fun p => (fpos (tid (e_index q)), fst p, snd p)) (rowd q)) L) =
  map (fun p => (fpos (tid (e_index q)), fst p, snd p)) (rowd q).
Proof.
  intros L q. induction L as [|q' r IH]; intros ND HA Hq; [destruct Hq|]. cbn [flat_map map] in *. rewrite filter_app.
  inversion ND as [|? ? Hn ND']; subst.
  assert (SELF : forall q0, filter (fun p : triplet => Nat.eqb (fst (fst p)) (fpos (tid (e_index q0))))
     (map (fun p => (fpos (tid (e_index q0)), fst p, snd p)) (rowd q0)) = map (fun p => (fpos (tid (e_index q0)), fst p, snd p)) (rowd q0)).
  { intros q0. induction (rowd q0) as [|p l IHl]; [reflexivity|]. cbn [map filter fst snd]. rewrite Nat.eqb_refl, IHl. reflexivity. }
  assert (OTHER : forall q0 q1, In q0 (all_eqs s) -> In q1 (all_eqs s) -> tid (e_index q0) <> tid (e_index q1) ->
     filter (fun p : triplet => Nat.eqb (fst (fst p)) (fpos (tid (e_index q0))))
     (map (fun p => (fpos (tid (e_index q1)), fst p, snd p)) (rowd q1)) = []).
  { intros q0 q1 A0 A1 NE. assert (Nat.eqb (fpos (tid (e_index q1))) (fpos (tid (e_index q0))) = false).
    { apply Nat.eqb_neq. intros E. apply NE.
      destruct (fpos_spec (tid (e_index q0)) (term_ids q0 _ A0 ltac:(apply in_app_iff; right; left; reflexivity))) as [_ [X0 _]].
      destruct (fpos_spec (tid (e_index q1)) (term_ids q1 _ A1 ltac:(apply in_app_iff; right; left; reflexivity))) as [_ [X1 _]].
      rewrite E in X1. congruence. }
    induction (rowd q1) as [|p l IHl]; [reflexivity|]. cbn [map filter fst snd]. rewrite H. exact IHl. }
  destruct Hq as [->|Hq].
  - rewrite SELF. rewrite <- app_nil_r. f_equal.
    assert (HR : forall q', In q' r -> tid (e_index q) <> tid (e_index q')).
    { intros q1 H1 E. apply Hn. rewrite E. apply (in_map (fun q => tid (e_index q))). exact H1. }
    clear IH ND ND' Hn. induction r as [|q1 r IHr]; [reflexivity|]. cbn [flat_map]. rewrite filter_app.
    rewrite OTHER by (first [apply HA; simpl; auto|apply HR; simpl; auto]). cbn [app].
    apply IHr; [intros q2 [<-|H2]; apply HA; simpl; auto|intros; apply HR; simpl; auto].
  - rewrite OTHER; [cbn [app]; apply IH; auto; intros; apply HA; simpl; auto|apply HA; simpl; auto|apply HA; simpl; auto|].
    intros E. apply Hn. rewrite <- E. apply (in_map (fun q => tid (e_index q))). exact Hq.
Qed.

Lemma mv_row : forall i q x, nth_error (all_eqs s) i = Some q ->
  mv triplets x i = kadd (x i) (ksum (map (fun t => kmul (coefficient e t) (x (fpos (tid t)))) (e_terms q))).
Proof.
  intros i q x H. pose proof (nth_error_In _ _ H) as Hq. unfold mv. rewrite <- (fpos_nth i q H). unfold triplets.
  rewrite (filter_rows blocks_in_order q order_nodup (fun q' => proj1 (In_order q')) (proj2 (In_order q) Hq)).
  rewrite map_map. cbn [fst snd]. apply rowd_spec. exact Hq.
Qed.

(** The vector of values of an assignment. *)
Definition xof (u : nd * list Z -> K) (i : nat) : K :=
  match nth_error (all_eqs s) i with Some q => u (unk (e_index q)) | None => k0 end.

Lemma xof_term : forall u q t, proper u -> In q (all_eqs s) -> In t (e_terms q) -> xof u (fpos (tid t)) = u (unk t).
Proof.
  intros u q t P Hq Ht. pose proof (so_closed s O q t Hq Ht) as I. destruct (fpos_spec _ I) as [_ [N _]].
  unfold index_ids in N. rewrite nth_error_map in N. unfold xof. destruct (nth_error (all_eqs s) (fpos (tid t))) as [q'|] eqn:E; [|discriminate].
  cbn [option_map] in N. assert (N' : tid (e_index q') = tid t) by congruence. apply nth_error_In in E.
  apply (u_same s O u q' (e_index q') q t P E Hq (or_introl eq_refl) (or_intror Ht) N').
Qed.

Lemma mv_value : forall u i q, proper u -> nth_error (all_eqs s) i = Some q -> mv triplets (xof u) i = row e u q.
Proof.
  intros u i q P H. rewrite (mv_row i q (xof u) H). unfold row. f_equal.
  - unfold xof. rewrite H. reflexivity.
  - apply ksum_ext. intros t Ht. rewrite (xof_term u q t P (nth_error_In _ _ H) Ht). reflexivity.
Qed.

(** Every vector comes from an assignment. *)
Definition uof (x : nat -> K) (p : nd * list Z) : K := x (fpos (term_id (fst p) (Some (mkVec true (snd p))))).

Lemma uof_proper : forall x, proper (uof x).
Proof.
  intros x a a' d V V' F F'. unfold uof. cbn [fst snd]. f_equal. f_equal. apply term_id_spec; auto.
Qed.

Lemma uof_xof : forall x i, (i < NN)%nat -> xof (uof x) i = x i.
Proof.
  intros x i H. unfold xof. destruct (nth_error (all_eqs s) i) as [q|] eqn:E; [|apply nth_error_None in E; unfold NN in H; lia].
  destruct (so_valid s O q (e_index q) (nth_error_In _ _ E) (or_introl eq_refl)) as [V [f Ef]].
  unfold uof, unk. rewrite Ef. cbn [fst snd].
  replace (term_id (cfg (t_cfg (e_index q))) (Some (mkVec true (v2 f)))) with (tid (e_index q)).
  - rewrite (fpos_nth i q E). reflexivity.
  - unfold tid. rewrite Ef. apply term_id_spec; auto.
Qed.

Lemma trip_range : forall i j c, In (i, j, c) triplets -> (i < NN)%nat /\ (j < NN)%nat.
Proof.
  intros i j c H. unfold triplets in H. apply in_flat_map in H. destruct H as [q [Hq H]]. apply In_order in Hq.
  apply in_map_iff in H. destruct H as [[j' c'] [E H]]. injection E as <- <- <-.
  split; [apply fpos_spec; apply (term_ids q); [exact Hq|apply in_app_iff; right; left; reflexivity]|].
  apply (in_map fst) in H. cbn [fst] in *. apply (rowd_spec q Hq) in H. destruct H as [t [Ht <-]]. apply fpos_spec. apply (term_ids q t Hq Ht).
Qed.

Lemma trip_keys : forall i j q, nth_error (all_eqs s) i = Some q -> 
  (In (i, j) (map fst triplets) <-> exists t, In t (e_terms q ++ [e_index q]) /\ fpos (tid t) = j).
Proof.
  intros i j q H. pose proof (nth_error_In _ _ H) as Hq. rewrite in_map_iff. split.
  - intros [[[i' j'] c] [E I]]. cbn [fst] in E. injection E as -> ->. unfold triplets in I. apply in_flat_map in I.
    destruct I as [q' [Hq' I]]. apply In_order in Hq'. apply in_map_iff in I. destruct I as [[j0 c0] [E I]]. injection E as E1 <- <-.
    assert (q' = q). { apply In_nth_error in Hq'. destruct Hq' as [i' Hi']. rewrite (fpos_nth i' q' Hi') in E1. congruence. } subst q'.
    apply (in_map fst) in I. apply (rowd_spec q Hq) in I. exact I.
  - intros Ht. apply (rowd_spec q Hq) in Ht. apply in_map_iff in Ht. destruct Ht as [[j' c] [<- I]]. exists (i, j', c). split; [reflexivity|].
    unfold triplets. apply in_flat_map. exists q. split; [apply In_order; exact Hq|]. apply in_map_iff. exists (j', c).
    rewrite (fpos_nth i q H). auto.
Qed.

Lemma trip_nodup : NoDup (map fst triplets).
Proof.
  unfold triplets. rewrite flat_map_concat_map, concat_map, map_map, <- flat_map_concat_map.
  apply NoDup_flat_map.
  - apply (NoDup_map_inv (fun q => tid (e_index q))). apply order_nodup.
  - intros q Hq. apply In_order in Hq. rewrite map_map. cbn [fst].
    rewrite <- (map_map fst (fun j => (fpos (tid (e_index q)), j))). apply NoDup_map_inj.
    + intros x y _ _ E. congruence.
    + apply rowd_spec. exact Hq.
  - intros q q' [i j] Hq Hq' H H'. apply In_order in Hq, Hq'. rewrite map_map in H, H'. cbn [fst] in H, H'.
    apply in_map_iff in H, H'. destruct H as [p [E _]]. destruct H' as [p' [E' _]]. injection E as E _. injection E' as E' _.
    apply In_nth_error in Hq, Hq'. destruct Hq as [a Ha]. destruct Hq' as [b Hb].
    rewrite (fpos_nth a q Ha) in E. rewrite (fpos_nth b q' Hb) in E'. congruence.
Qed.

Lemma entry_mv : forall tr i j, entry tr i j = mv tr (fun j' => if Nat.eqb j' j then k1 else (k0 : K)) i.
Proof.
  intros tr i j. unfold entry, mv. induction tr as [|p r IH]; [reflexivity|]. cbn [filter].
  destruct (Nat.eqb (fst (fst p)) i); cbn [andb]; [|exact IH]. cbn [map]. rewrite ksum_cons.
  destruct (Nat.eqb (snd (fst p)) j); cbn [map]; rewrite ?ksum_cons, IH; ring.
Qed.

Lemma matrix_entry : forall su i j q q', (forall t t', su t t' = true <-> same_unknown t t') ->
  nth_error (all_eqs s) i = Some q -> nth_error (all_eqs s) j = Some q' ->
  entry triplets i j = kadd (if Nat.eqb i j then k1 else k0)
    (ksum (map (coefficient e) (filter (fun t => su t (e_index q')) (e_terms q)))).
Proof.
  intros su i j q q' SU Hi Hj. rewrite entry_mv, (mv_row i q _ Hi). f_equal.
  pose proof (nth_error_In _ _ Hi) as Hq. pose proof (nth_error_In _ _ Hj) as Hq'.
  assert (A : forall t, In t (e_terms q) -> Nat.eqb (fpos (tid t)) j = su t (e_index q')).
  { intros t Ht. apply eq_true_iff_eq. rewrite SU, Nat.eqb_eq.
    rewrite <- (same_unknown_id t (e_index q')) by (apply (so_valid s O q t Hq (or_intror Ht)) || apply (so_valid s O q' _ Hq' (or_introl eq_refl))).
    rewrite <- (fpos_nth j q' Hj). split; [|intros ->; reflexivity].
    destruct (fpos_spec _ (so_closed s O q t Hq Ht)) as [_ [N1 _]].
    destruct (fpos_spec (tid (e_index q')) (term_ids q' _ Hq' ltac:(apply in_app_iff; right; left; reflexivity))) as [_ [N2 _]].
    intros E. rewrite E in N1. congruence. }
  revert A. generalize (e_terms q). intros l. induction l as [|t r IH]; intros A; [reflexivity|]. cbn [map filter].
  rewrite ksum_cons, IH by (intros; apply A; simpl; auto). rewrite (A t (or_introl eq_refl)).
  destruct (su t (e_index q')); cbn [map]; rewrite ?ksum_cons; ring.
Qed.

Lemma NN_pos : (0 < NN)%nat.
Proof. unfold NN, all_eqs. destruct (so_green s O) as [l [q [El _]]]. rewrite El, flat_map_app, app_length. simpl. lia. Qed.

Lemma lmax_is : forall l n, (forall x, In x l -> (x <= n)%nat) -> In n l -> lmax l = n.
Proof.
  intros l n H I. assert (U : forall l', (forall x, In x l' -> (x <= n)%nat) -> (lmax l' <= n)%nat).
  { induction l' as [|x r IH]; intros H'; cbn [lmax fold_right]; [lia|]. pose proof (H' x (or_introl eq_refl)).
    change (fold_right Nat.max 0%nat r) with (lmax r). assert (lmax r <= n)%nat by (apply IH; intros; apply H'; simpl; auto). lia. }
  pose proof (U l H) as B. assert (L : forall l', In n l' -> (n <= lmax l')%nat).
  { induction l' as [|x r IH]; intros I'; [destruct I'|]. cbn [lmax fold_right]. change (fold_right Nat.max 0%nat r) with (lmax r).
    destruct I' as [->|I']; [lia|]. apply IH in I'. lia. }
  pose proof (L l I). lia.
Qed.

Lemma diag : forall i, (i < NN)%nat -> In (i, i) (map fst triplets).
Proof.
  intros i H. destruct (nth_error (all_eqs s) i) as [q|] eqn:E; [|apply nth_error_None in E; unfold NN in H; lia].
  apply (trip_keys i i q E). exists (e_index q). split; [apply in_app_iff; right; left; reflexivity|apply fpos_nth; exact E].
Qed.

Lemma dim_ok : forall f : nat * nat * K -> nat,
  (forall i j c, In (i, j, c) triplets -> (f (i, j, c) < NN)%nat) -> (forall i c, f (i, i, c) = i) ->
  coo_dim (map f triplets) = Ok NN.
Proof.
  intros f H1 H2. pose proof NN_pos as P. pose proof (diag (NN - 1) ltac:(lia)) as D.
  apply in_map_iff in D. destruct D as [[p c] [E D]]. cbn [fst] in E. subst p.
  assert (I : In (NN - 1)%nat (map f triplets)) by (apply in_map_iff; exists ((NN - 1)%nat, (NN - 1)%nat, c); auto).
  unfold coo_dim. destruct (map f triplets) as [|x r] eqn:El; [destruct I|]. rewrite <- El in *. f_equal.
  rewrite (lmax_is _ (NN - 1)%nat); [lia| |exact I]. intros y Hy. apply in_map_iff in Hy. destruct Hy as [[[i j] c'] [<- Hy]].
  apply H1 in Hy. lia.
Qed.

Lemma green_pos : exists q, nth_error (all_eqs s) (NN - 1) = Some q /\ tid (e_index q) = "{G}[0.0]"%string /\ e_green q = true /\
  assocZ 0 (s_eqs s) = Some [q] /\ forall i q', nth_error (all_eqs s) i = Some q' -> e_green q' = true -> i = (NN - 1)%nat.
Proof.
  destruct (so_green s O) as [l [q [El [Et [Eg NG]]]]]. exists q. unfold NN, all_eqs. rewrite El, flat_map_app, app_length. cbn [flat_map snd app List.length].
  assert (L : nth_error (flat_map snd l ++ [q]) (List.length (flat_map snd l) + 1 - 1) = Some q).
  { rewrite nth_error_app2 by lia. replace (_ + 1 - 1 - _)%nat with 0%nat by lia. reflexivity. }
  split; [exact L|]. split; [exact Et|]. split; [exact Eg|]. split.
  - rewrite <- El. apply assocZ_In; [apply (keys_nodup s O)|rewrite El; apply in_app_iff; right; left; reflexivity].
  - intros i q' H G'. destruct (Nat.lt_ge_cases i (List.length (flat_map snd l))) as [C|C].
    + rewrite nth_error_app1 in H by exact C. apply nth_error_In in H. rewrite (NG q' H) in G'. discriminate.
    + assert (i < List.length (flat_map snd l ++ [q]))%nat by (apply nth_error_Some; congruence). rewrite app_length in H0. simpl in H0. lia.
Qed.

Lemma scaffold_ok : scaffold e (full_basis s) s =
  Ok (mkCoo NN NN triplets, mkCoo NN 1 [((NN - 1)%nat, 0%nat, G0 e)]).
Proof.
  unfold scaffold. rewrite matrix_ok. cbn [bind]. unfold coo_matrix at 1.
  rewrite dim_ok; [|cbn [fst snd]; intros i j c H; apply trip_range in H; lia|reflexivity]. cbn [bind].
  rewrite dim_ok; [|cbn [fst snd]; intros i j c H; apply trip_range in H; lia|reflexivity]. cbn [bind].
  destruct green_pos as [q [Hq [Et [Eg [E0 _]]]]]. unfold lookup. rewrite <- Et.
  rewrite (proj2 (fb_spec (tid (e_index q)) (NN - 1))) by (unfold index_ids; rewrite nth_error_map, Hq; reflexivity).
  cbn [bind]. unfold equations_at. rewrite E0. cbn [bind]. unfold bias. rewrite Eg.
  unfold coo_matrix, coo_dim. cbn [map fst snd bind lmax fold_right]. pose proof NN_pos. do 4 f_equal. lia.
Qed.

Lemma bias_pos : forall i q, nth_error (all_eqs s) i = Some q -> bias e q = entry [((NN - 1)%nat, 0%nat, G0 e)] i 0.
Proof.
  intros i q H. destruct green_pos as [q0 [Hq0 [_ [Eg [_ U]]]]]. unfold bias, entry. cbn [filter fst snd]. rewrite Nat.eqb_refl, andb_true_r.
  destruct (e_green q) eqn:E.
  - rewrite (U i q H E), Nat.eqb_refl. cbn [map snd]. rewrite ksum_cons. simpl. ring.
  - destruct (Nat.eqb_spec (NN - 1) i) as [<-|N]; [congruence|reflexivity].
Qed.

(** A vector solves the matrix equation iff its assignment satisfies every
    equation. *)
Lemma solves_iff : forall u, proper u ->
  ((forall i, (i < NN)%nat -> mv triplets (xof u) i = entry [((NN - 1)%nat, 0%nat, G0 e)] i 0) <-> solution e s u).
Proof.
  intros u P. unfold solution, holds. split.
  - intros H q Hq. apply In_nth_error in Hq. destruct Hq as [i Hi].
    assert (L : (i < NN)%nat) by (unfold NN; apply nth_error_Some; congruence).
    rewrite <- (mv_value u i q P Hi), H by exact L. symmetry. apply bias_pos. exact Hi.
  - intros H i L. destruct (nth_error (all_eqs s) i) as [q|] eqn:E; [|apply nth_error_None in E; unfold NN in L; lia].
    rewrite (mv_value u i q P E), (H q (nth_error_In _ _ E)). apply bias_pos. exact E.
Qed.

Lemma mv_ext : forall (tr : list (@triplet K)) x y i, (forall p, In p tr -> x (snd (fst p)) = y (snd (fst p))) -> mv tr x i = mv tr y i.
Proof.
  intros tr x y i H. unfold mv. apply ksum_ext. intros p Hp. apply filter_In in Hp. rewrite (H p (proj1 Hp)). reflexivity.
Qed.

Lemma mv_uof : forall x i, mv triplets (xof (uof x)) i = mv triplets x i.
Proof. intros x i. apply mv_ext. intros [[a b] c] H. apply uof_xof. apply (trip_range a b c H). Qed.

(** Nonsingularity in terms of equations. *)
Lemma nonsingular_iff : nonsingular (mkCoo NN NN triplets) <->
  forall u, proper u -> (forall q, In q (all_eqs s) -> row e u q = k0) ->
    forall q, In q (all_eqs s) -> u (unk (e_index q)) = k0.
Proof.
  unfold nonsingular. cbn [c_rows c_cols c_ent]. split.
  - intros N u P H q Hq. apply In_nth_error in Hq. destruct Hq as [i Hi].
    assert (L : (i < NN)%nat) by (unfold NN; apply nth_error_Some; congruence).
    assert (X : xof u i = k0); [|unfold xof in X; rewrite Hi in X; exact X]. apply N; [|exact L]. intros j Lj.
    destruct (nth_error (all_eqs s) j) as [q'|] eqn:E; [|apply nth_error_None in E; unfold NN in Lj; lia].
    rewrite (mv_value u j q' P E). apply H. apply (nth_error_In _ _ E).
  - intros H x Hx i Hi. rewrite <- (uof_xof x i Hi). unfold xof.
    destruct (nth_error (all_eqs s) i) as [q|] eqn:E; [|reflexivity].
    apply (H (uof x) (uof_proper x)); [|apply (nth_error_In _ _ E)]. intros q' Hq'. apply In_nth_error in Hq'. destruct Hq' as [j Hj].
    rewrite <- (mv_value (uof x) j q' (uof_proper x) Hj), mv_uof. apply Hx. unfold NN. apply nth_error_Some. congruence.
Qed.

End Matrix.

(** The result of SparseSolver. *)
Section Results.
Context {T : Type} {K : cring}.
Add Ring KRres : (klaws K).
Variable e : env T K.

Lemma sparse_result : forall (s : system T) (O : sys_ok s) sp X v, scaffold e (full_basis s) s = Ok (X, v) -> solves X v (sp X v) ->
  exists g, sparse_solve e sp s = Ok g /\ (exists u, proper u /\ solution e s u /\ g_value s u g) /\
    (nonsingular X -> forall u, proper u -> solution e s u -> g_value s u g).
Proof.
  intros s O sp X v ES SV. rewrite (scaffold_ok e s O) in ES. injection ES as <- <-.
  set (X := mkCoo (NN s) (NN s) (triplets e s)) in *. set (v := mkCoo (NN s) 1 _) in *.
  destruct (green_pos s O) as [q [Hq [Et [Eg [E0 U]]]]]. exists (sp X v (NN s - 1)%nat).
  assert (ER : sparse_solve e sp s = Ok (sp X v (NN s - 1)%nat)).
  { unfold sparse_solve. rewrite (scaffold_ok e s O). cbn [bind c_rows c_cols]. unfold guard. rewrite !Nat.eqb_refl. cbn [andb bind].
    unfold lookup. rewrite <- Et. rewrite (proj2 (fb_spec s O (tid (e_index q)) (NN s - 1))) by (unfold index_ids; rewrite nth_error_map, Hq; reflexivity).
    reflexivity. }
  split; [exact ER|].
  assert (SOL : solution e s (uof s (sp X v))).
  { apply (solves_iff e s O); [apply uof_proper|]. intros i Hi. rewrite (mv_uof e s O). apply (SV i Hi). }
  assert (GV : g_value s (uof s (sp X v)) (sp X v (NN s - 1)%nat)).
  { intros q' Hq' G'. apply In_nth_error in Hq'. destruct Hq' as [i Hi]. pose proof (U i q' Hi G') as ->.
    pose proof (NN_pos s O). rewrite <- (uof_xof s O (sp X v) (NN s - 1)) by lia. unfold xof. rewrite Hi. reflexivity. }
  split; [exists (uof s (sp X v)); split; [apply uof_proper|auto]|].
  intros NS u P Su q' Hq' G'. rewrite <- (GV q' Hq' G').
  pose proof (proj1 (nonsingular_iff e s O) NS (fun p => ksub (u p) (uof s (sp X v) p))) as Z.
  assert (Z0 : ksub (u (unk (e_index q'))) (uof s (sp X v) (unk (e_index q'))) = k0).
  { apply Z; [|intros q2 Hq2|exact Hq'].
    - intros a a' d V V' F F'. rewrite (P a a' d V V' F F'), (uof_proper s (sp X v) a a' d V V' F F'). reflexivity.
    - pose proof (Su q2 Hq2) as S1. pose proof (SOL q2 Hq2) as S2. unfold holds in *. 
      transitivity (ksub (row e u q2) (row e (uof s (sp X v)) q2)); [|rewrite S1, S2; ring]. unfold row.
      assert (LS : forall l : list (term T), ksum (map (fun t => kmul (coefficient e t) (ksub (u (unk t)) (uof s (sp X v) (unk t)))) l) =
        ksub (ksum (map (fun t => kmul (coefficient e t) (u (unk t))) l)) (ksum (map (fun t => kmul (coefficient e t) (uof s (sp X v) (unk t))) l))).
      { induction l as [|t r IH]; [simpl; ring|]. cbn [map]. rewrite !ksum_cons, IH. ring. }
      rewrite LS. ring. }
  transitivity (kadd (ksub (u (unk (e_index q'))) (uof s (sp X v) (unk (e_index q')))) (uof s (sp X v) (unk (e_index q')))); [ring|rewrite Z0; ring].
Qed.

Lemma g_value_unique : forall (s : system T) (O : sys_ok s) (u : nd * list Z -> K) g g', g_value s u g -> g_value s u g' -> g = g'.
Proof.
  intros s O u g g' H H'. destruct (green_pos s O) as [q [Hq [_ [Eg _]]]]. apply nth_error_In in Hq.
  rewrite <- (H q Hq Eg). apply (H' q Hq Eg).
Qed.

Lemma order_result : forall (s s' : system T) (O : sys_ok s) (O' : sys_ok s'), Permutation (all_eqs s) (all_eqs s') ->
  forall (m : model T) ord', prime_system ord' m = Ok s' -> forall sp X v,
  scaffold e (full_basis s) s = Ok (X, v) -> nonsingular X -> spsolve_ok sp ->
  exists s' X' v', prime_system ord' m = Ok s' /\ scaffold e (full_basis s') s' = Ok (X', v') /\ nonsingular X' /\
    sparse_solve e sp s' = sparse_solve e sp s.
Proof.
  intros s s' O O' PE m ord' E' sp X v ES NS SO.
  assert (IN : forall q, In q (all_eqs s) <-> In q (all_eqs s')) by (intros q; apply perm_In_iff; exact PE).
  assert (NS' : nonsingular (mkCoo (NN s') (NN s') (triplets e s'))).
  { apply (nonsingular_iff e s' O'). intros u P H q Hq. rewrite (scaffold_ok e s O) in ES. injection ES as <- <-.
    apply (proj1 (nonsingular_iff e s O) NS u P); [intros q2 H2; apply H, IN, H2|apply IN, Hq]. }
  eexists s', _, _. split; [exact E'|]. split; [apply (scaffold_ok e s' O')|]. split; [exact NS'|].
  pose proof ES as ES0. rewrite (scaffold_ok e s O) in ES0. injection ES0 as EX EV.
  assert (SV : solves X v (sp X v)) by (apply SO; [subst X; reflexivity|subst X v; reflexivity|exact NS]).
  destruct (sparse_result s O sp X v ES SV) as [g [E1 [_ H1]]].
  destruct (sparse_result s' O' sp _ _ (scaffold_ok e s' O') (SO (mkCoo (NN s') (NN s') (triplets e s')) (mkCoo (NN s') 1 [((NN s' - 1)%nat, 0%nat, G0 e)]) eq_refl eq_refl NS')) as [g' [E2 [[u' [Pu' [Su' Gu']]] H2]]].
  rewrite E1, E2. f_equal. apply (g_value_unique s O u').
  - intros q Hq Eg. apply Gu'; [apply IN; exact Hq|exact Eg].
  - apply (H1 NS u' Pu'). intros q Hq. apply Su', IN, Hq.
Qed.
End Results.
