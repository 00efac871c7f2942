(** Lemmas about the array model. *)
From Coq Require Import ZArith List Bool Lia Permutation.
From Verif Require Import Base NdArray.
Import ListNotations.
Open Scope Z_scope.

(* ---------- generic list facts ---------- *)

Lemma sumZ_app : forall l1 l2, sumZ (l1 ++ l2) = sumZ l1 + sumZ l2.
Proof. induction l1; simpl; intros; [lia|rewrite IHl1; lia]. Qed.

Lemma sumZ_perm : forall l1 l2, Permutation l1 l2 -> sumZ l1 = sumZ l2.
Proof. induction 1; simpl; lia. Qed.

Lemma sumZ_nonneg : forall l, Forall (fun x => 0 <= x) l -> 0 <= sumZ l.
Proof. induction 1; simpl; lia. Qed.

Lemma sumZ_zero_all : forall l, Forall (fun x => 0 <= x) l -> sumZ l = 0 ->
  Forall (fun x => x = 0) l.
Proof.
  induction 1; intros; constructor; simpl in *;
    pose proof (sumZ_nonneg _ H0); [lia|apply IHForall; lia].
Qed.

Lemma sumZ_all_zero : forall l, Forall (fun x => x = 0) l -> sumZ l = 0.
Proof. induction 1; simpl; lia. Qed.

Lemma sumZ_pos_ex : forall l, 0 < sumZ l -> exists x, In x l /\ 0 < x.
Proof.
  induction l; simpl; intros; [lia|].
  destruct (Z_lt_ge_dec 0 a).
  - exists a; auto.
  - destruct IHl as [x [? ?]]; [lia|]. eauto.
Qed.

Lemma sumZ_In_le : forall l x, Forall (fun x => 0 <= x) l -> In x l -> x <= sumZ l.
Proof.
  induction l; simpl; intros; [easy|]. inversion H; subst.
  pose proof (sumZ_nonneg _ H4).
  destruct H0; subst; [lia|]. specialize (IHl _ H4 H0). lia.
Qed.

Lemma sumZ_map_ext : forall {A} (f g : A -> Z) l,
  (forall x, In x l -> f x = g x) -> sumZ (map f l) = sumZ (map g l).
Proof. intros. f_equal. apply map_ext_in. auto. Qed.

Lemma sumZ_map_add : forall {A} (f g : A -> Z) l,
  sumZ (map (fun x => f x + g x) l) = sumZ (map f l) + sumZ (map g l).
Proof. induction l; simpl; lia. Qed.

Lemma sumZ_map_scal : forall {A} c (f : A -> Z) l,
  sumZ (map (fun x => c * f x) l) = c * sumZ (map f l).
Proof. induction l; simpl; lia. Qed.

Lemma sumZ_map_zero : forall {A} (f : A -> Z) l,
  (forall x, In x l -> f x = 0) -> sumZ (map f l) = 0.
Proof. induction l; simpl; intros; [lia|]. rewrite H, IHl; auto. Qed.

Lemma sumZ_flat_map : forall {A B} (f : B -> Z) (g : A -> list B) l,
  sumZ (map f (flat_map g l)) = sumZ (map (fun x => sumZ (map f (g x))) l).
Proof.
  induction l; simpl; auto. rewrite map_app, sumZ_app, IHl. auto.
Qed.

Lemma sumZ_swap : forall {A B} (f : A -> B -> Z) la lb,
  sumZ (map (fun x => sumZ (map (f x) lb)) la) =
  sumZ (map (fun y => sumZ (map (fun x => f x y) la)) lb).
Proof.
  induction la; intros; simpl.
  - symmetry. apply sumZ_map_zero; auto.
  - rewrite sumZ_map_add, IHla; auto.
Qed.

Lemma sumZ_filter_split : forall {A} (p : A -> bool) (f : A -> Z) l,
  sumZ (map f l) = sumZ (map f (filter p l)) + sumZ (map f (filter (fun x => negb (p x)) l)).
Proof. induction l; simpl; auto. destruct (p a); simpl; lia. Qed.

Lemma sumZ_filter_nz : forall {A} (f : A -> Z) l,
  sumZ (map f (filter (fun x => negb (f x =? 0)) l)) = sumZ (map f l).
Proof.
  intros. rewrite (sumZ_filter_split (fun x => negb (f x =? 0)) f l).
  rewrite (@sumZ_map_zero _ f (filter (fun x => negb (negb (f x =? 0))) l)); [lia|].
  intros x Hx; apply filter_In in Hx. destruct Hx as [_ Hx].
  rewrite negb_involutive in Hx. apply Z.eqb_eq; auto.
Qed.

Lemma sumZ_filter_if : forall {A} (p : A -> bool) (f : A -> Z) l,
  sumZ (map f (filter p l)) = sumZ (map (fun x => if p x then f x else 0) l).
Proof. induction l; simpl; auto. destruct (p a); simpl; lia. Qed.

(** Two duplicate-free lists covering the support of [f] give the same sum. *)
Lemma sum_support : forall {A} (f : A -> Z) l1 l2,
  NoDup l1 -> NoDup l2 ->
  (forall x, f x <> 0 -> In x l1) -> (forall x, f x <> 0 -> In x l2) ->
  sumZ (map f l1) = sumZ (map f l2).
Proof.
  intros. rewrite <- (sumZ_filter_nz f l1), <- (sumZ_filter_nz f l2).
  apply sumZ_perm, Permutation_map, NoDup_Permutation;
    try apply NoDup_filter; auto.
  intros x. rewrite !filter_In, negb_true_iff, Z.eqb_neq.
  split; intros [? ?]; split; auto.
Qed.

(** The same with a reindexing [g] that is injective and hits the support. *)
Lemma sum_support_map : forall {A B} (fa : A -> Z) (fb : B -> Z) (g : B -> A) la lb,
  NoDup la -> NoDup lb ->
  (forall x y, In x lb -> In y lb -> g x = g y -> x = y) ->
  (forall y, In y lb -> fb y = fa (g y)) ->
  (forall x, fa x <> 0 -> In x la) ->
  (forall x, fa x <> 0 -> exists y, In y lb /\ g y = x) ->
  sumZ (map fa la) = sumZ (map fb lb).
Proof.
  intros A B fa fb g la lb Na Nb Hinj Heq Ha Hb.
  transitivity (sumZ (map fa (map g lb))).
  - apply sum_support; auto.
    + clear - Nb Hinj. induction Nb; simpl; constructor.
      * rewrite in_map_iff. intros [y [Hy Hin]].
        apply Hinj in Hy; simpl; auto. subst; auto.
      * apply IHNb. intros; apply Hinj; simpl; auto.
    + intros x Hx. apply in_map_iff. destruct (Hb x Hx) as [y [? ?]]; eauto.
  - rewrite map_map. apply sumZ_map_ext. intros; symmetry; auto.
Qed.

Lemma nth_map_in : forall {A B} (f : A -> B) l n d d', (n < length l)%nat ->
  nth n (map f l) d' = f (nth n l d).
Proof.
  intros. rewrite nth_indep with (d' := f d) by (rewrite map_length; auto).
  apply map_nth.
Qed.

Lemma length_setn : forall {A} (l : list A) n v, length (setn l n v) = length l.
Proof. induction l; destruct n; simpl; auto. Qed.

Lemma nth_setn_eq : forall {A} (l : list A) n v d, (n < length l)%nat ->
  nth n (setn l n v) d = v.
Proof. induction l; destruct n; simpl; intros; try lia; auto. apply IHl; lia. Qed.

Lemma nth_setn_ne : forall {A} (l : list A) n m v d, n <> m ->
  nth m (setn l n v) d = nth m l d.
Proof. induction l; destruct n, m; simpl; intros; auto; try lia. Qed.

Lemma setn_setn : forall {A} (l : list A) n v w, setn (setn l n v) n w = setn l n w.
Proof. induction l; destruct n; simpl; intros; auto. rewrite IHl; auto. Qed.

Lemma setn_same : forall {A} (l : list A) n d, setn l n (nth n l d) = l.
Proof. induction l; destruct n; simpl; intros; auto. rewrite IHl; auto. Qed.

Lemma map_setn : forall {A B} (f : A -> B) l n v, map f (setn l n v) = setn (map f l) n (f v).
Proof. induction l; destruct n; simpl; intros; auto. rewrite IHl; auto. Qed.

Lemma eqln_eq : forall a b, eqln a b = true <-> a = b.
Proof.
  induction a; destruct b; simpl; split; intros; try easy.
  - apply andb_true_iff in H; destruct H as [H1 H2].
    apply Nat.eqb_eq in H1; apply IHa in H2; subst; auto.
  - inversion H; subst. rewrite Nat.eqb_refl; simpl. apply IHa; auto.
Qed.

Lemma eqlZ_eq : forall a b, eqlZ a b = true <-> a = b.
Proof.
  induction a; destruct b; simpl; split; intros; try easy.
  - apply andb_true_iff in H; destruct H as [H1 H2].
    apply Z.eqb_eq in H1; apply IHa in H2; subst; auto.
  - inversion H; subst. rewrite Z.eqb_refl; simpl. apply IHa; auto.
Qed.

(* ---------- vectors ---------- *)

Lemma length_addv : forall a b, length a = length b -> length (addv a b) = length a.
Proof. induction a; destruct b; simpl; intros; auto; try lia. Qed.

Lemma length_oppv : forall a, length (oppv a) = length a.
Proof. intros; apply map_length. Qed.

Lemma length_subv : forall a b, length a = length b -> length (subv a b) = length a.
Proof. intros; apply length_addv. rewrite length_oppv; auto. Qed.

Lemma nth_addv : forall a b n, length a = length b ->
  nth n (addv a b) 0 = nth n a 0 + nth n b 0.
Proof.
  induction a; destruct b; destruct n; simpl; intros; auto; try lia.
Qed.

Lemma nth_oppv : forall a n, nth n (oppv a) 0 = - nth n a 0.
Proof. induction a; destruct n; simpl; auto. Qed.

Lemma nth_subv : forall a b n, length a = length b ->
  nth n (subv a b) 0 = nth n a 0 - nth n b 0.
Proof. intros; unfold subv. rewrite nth_addv, nth_oppv; [lia|]. rewrite length_oppv; auto. Qed.

Lemma length_zerov : forall n, length (zerov n) = n.
Proof. intros; apply repeat_length. Qed.

Lemma nth_zerov : forall n k, nth k (zerov n) 0 = 0.
Proof. induction n; destruct k; simpl; auto. Qed.

Lemma vec_ext : forall (a b : list Z), length a = length b ->
  (forall n, nth n a 0 = nth n b 0) -> a = b.
Proof. intros; apply nth_ext with (d := 0) (d' := 0); auto. Qed.

Lemma addv_zerov : forall a n, length a = n -> addv a (zerov n) = a.
Proof.
  intros; apply vec_ext.
  - rewrite length_addv; auto; rewrite length_zerov; auto.
  - intros; rewrite nth_addv, nth_zerov; [lia|rewrite length_zerov; auto].
Qed.

Lemma addv_subv : forall a b, length a = length b -> addv (subv a b) b = a.
Proof.
  intros; apply vec_ext.
  - rewrite length_addv, length_subv; auto; rewrite length_subv; auto.
  - intros; rewrite nth_addv, nth_subv; auto; [lia|rewrite length_subv; auto].
Qed.

Lemma subv_addv : forall a b, length a = length b -> subv (addv a b) b = a.
Proof.
  intros; apply vec_ext.
  - rewrite length_subv, length_addv; auto; rewrite length_addv; auto.
  - intros; rewrite nth_subv, nth_addv; auto; [lia|rewrite length_addv; auto].
Qed.

Lemma addv_assoc : forall a b c, length a = length b -> length b = length c ->
  addv (addv a b) c = addv a (addv b c).
Proof.
  induction a; destruct b, c; simpl; intros; try lia; auto.
  f_equal; [lia|]. apply IHa; lia.
Qed.

Lemma addv_comm : forall a b, length a = length b -> addv a b = addv b a.
Proof. induction a; destruct b; simpl; intros; try lia; auto. f_equal; [lia|]. apply IHa; lia. Qed.

Lemma addv_inj : forall a b c, length a = length c -> length b = length c ->
  addv a c = addv b c -> a = b.
Proof.
  intros. rewrite <- (subv_addv a c), <- (subv_addv b c); auto. congruence.
Qed.

(* ---------- indexes ---------- *)

Definition inr (s i : list nat) : Prop := Forall2 (fun d x => (x < d)%nat) s i.

Lemma inr_length : forall s i, inr s i -> length i = length s.
Proof. induction 1; simpl; auto. Qed.

Lemma inr_nth : forall s i, inr s i <->
  length i = length s /\ forall n, (n < length s)%nat -> (nth n i 0 < nth n s 0)%nat.
Proof.
  induction s; destruct i; split; intros.
  - split; auto; simpl; lia.
  - constructor.
  - inversion H.
  - destruct H; easy.
  - inversion H.
  - destruct H; easy.
  - inversion H; subst. apply IHs in H5. destruct H5. split; simpl; [lia|].
    intros [|m] Hm; auto. apply H1; lia.
  - destruct H. constructor.
    + apply (H0 0%nat); simpl; lia.
    + apply IHs. split; [simpl in H; lia|]. intros. apply (H0 (S n0)); simpl; lia.
Qed.

Lemma ravel_lt : forall s i, inr s i -> (ravel s i < prodn s)%nat.
Proof. induction 1; simpl; [lia|]. nia. Qed.

Lemma ravel_inj : forall s i j, inr s i -> inr s j -> ravel s i = ravel s j -> i = j.
Proof.
  intros s i j Hi; revert j. induction Hi; intros j Hj; inversion Hj; subst; auto.
  simpl. intros E.
  pose proof (ravel_lt _ _ Hi). pose proof (ravel_lt _ _ H4).
  assert (y = y0) by nia. subst. f_equal. apply IHHi; auto. lia.
Qed.

Lemma In_all_idx : forall s i, In i (all_idx s) <-> inr s i.
Proof.
  induction s; simpl; intros.
  - split; intros.
    + destruct H; [subst; constructor|easy].
    + inversion H; auto.
  - rewrite in_flat_map. split.
    + intros [x [Hx Hi]]. apply in_map_iff in Hi. destruct Hi as [j [? ?]]; subst.
      constructor; [apply in_seq in Hx; lia|apply IHs; auto].
    + intros H; inversion H; subst. exists y. split; [apply in_seq; lia|].
      apply in_map. apply IHs; auto.
Qed.

Lemma length_flat_map_const : forall {A B} (f : A -> list B) l n,
  (forall x, length (f x) = n) -> length (flat_map f l) = (length l * n)%nat.
Proof. induction l; simpl; intros; auto. rewrite app_length, H, (IHl n); auto. Qed.

Lemma length_all_idx : forall s, length (all_idx s) = prodn s.
Proof.
  induction s; auto. simpl.
  rewrite length_flat_map_const with (n := prodn s).
  - rewrite seq_length; auto.
  - intros; rewrite map_length; auto.
Qed.

Lemma NoDup_map_inj : forall {A B} (f : A -> B) l,
  (forall x y, In x l -> In y l -> f x = f y -> x = y) -> NoDup l -> NoDup (map f l).
Proof.
  induction l; simpl; intros; constructor; inversion H0; subst.
  - rewrite in_map_iff. intros [y [Hy Hin]]. apply H in Hy; auto. subst; auto.
  - apply IHl; auto.
Qed.

Lemma NoDup_app : forall {A} (l1 l2 : list A), NoDup l1 -> NoDup l2 ->
  (forall x, In x l1 -> In x l2 -> False) -> NoDup (l1 ++ l2).
Proof.
  induction l1; simpl; intros; auto. inversion H; subst. constructor.
  - rewrite in_app_iff. intros [?|?]; eauto.
  - apply IHl1; eauto.
Qed.

Lemma NoDup_flat_map : forall {A B} (f : A -> list B) l, NoDup l ->
  (forall x, In x l -> NoDup (f x)) ->
  (forall x y z, In x l -> In y l -> In z (f x) -> In z (f y) -> x = y) ->
  NoDup (flat_map f l).
Proof.
  induction l; simpl; intros; [constructor|]. inversion H; subst.
  apply NoDup_app; auto.
  - apply IHl; auto. intros. eapply H1; eauto.
  - intros x Hx Hy. apply in_flat_map in Hy. destruct Hy as [y [Hy1 Hy2]].
    assert (a = y) by (eapply H1; eauto). subst; auto.
Qed.

Lemma NoDup_all_idx : forall s, NoDup (all_idx s).
Proof.
  induction s; simpl.
  - constructor; auto. constructor.
  - apply NoDup_flat_map.
    + apply seq_NoDup.
    + intros. apply NoDup_map_inj; auto. congruence.
    + intros. apply in_map_iff in H1. apply in_map_iff in H2.
      destruct H1 as [? [? ?]], H2 as [? [? ?]]. congruence.
Qed.

Lemma nth_flat_map_const : forall {A B} (f : A -> list B) l n m k da db,
  (forall x, length (f x) = n) -> (k < n)%nat -> (m < length l)%nat ->
  nth (m * n + k) (flat_map f l) db = nth k (f (nth m l da)) db.
Proof.
  induction l; simpl; intros; [lia|].
  destruct m; simpl.
  - rewrite app_nth1; auto. rewrite H; auto.
  - rewrite app_nth2; rewrite H; [|lia].
    replace (n + m * n + k - n)%nat with (m * n + k)%nat by lia.
    apply IHl; auto. lia.
Qed.

Lemma nth_all_idx : forall s i, inr s i -> nth (ravel s i) (all_idx s) [] = i.
Proof.
  induction 1; simpl; auto.
  rewrite nth_flat_map_const with (n := prodn l) (da := 0%nat).
  - rewrite seq_nth by lia. simpl.
    rewrite nth_map_in with (d := []); [|rewrite length_all_idx; apply ravel_lt; auto].
    rewrite IHForall2; auto.
  - intros; rewrite map_length, length_all_idx; auto.
  - apply ravel_lt; auto.
  - rewrite seq_length; auto.
Qed.

(* ---------- get / tab ---------- *)

Lemma wf_tab : forall s f, wf (tab s f).
Proof. intros; unfold wf, tab; simpl. rewrite map_length, length_all_idx; auto. Qed.

Lemma get_tab : forall s f i, inr s i -> get (tab s f) i = f i.
Proof.
  intros. unfold get, tab; simpl.
  rewrite nth_map_in with (d := []); [|rewrite length_all_idx; apply ravel_lt; auto].
  rewrite nth_all_idx; auto.
Qed.

Lemma ravel_nth_all_idx : forall s n, (n < prodn s)%nat ->
  ravel s (nth n (all_idx s) []) = n.
Proof.
  intros. rewrite <- length_all_idx in H.
  assert (In (nth n (all_idx s) []) (all_idx s)) by (apply nth_In; auto).
  apply In_all_idx in H0.
  pose proof (nth_all_idx _ _ H0).
  pose proof (NoDup_all_idx s).
  rewrite (NoDup_nth (all_idx s) []) in H2. apply H2; auto.
  rewrite length_all_idx. apply ravel_lt; auto.
Qed.

Lemma dat_map_get : forall a, wf a -> dat a = map (get a) (all_idx (shp a)).
Proof.
  intros. apply nth_ext with (d := 0) (d' := 0).
  - rewrite map_length, length_all_idx; auto.
  - intros. rewrite H in H0.
    rewrite nth_map_in with (d := []); [|rewrite length_all_idx; auto].
    unfold get. rewrite ravel_nth_all_idx; auto.
Qed.

Lemma nd_eta : forall a, wf a -> a = tab (shp a) (get a).
Proof. intros. unfold tab. rewrite <- dat_map_get; auto. destruct a; auto. Qed.

Lemma nd_ext : forall a b, wf a -> wf b -> shp a = shp b ->
  (forall i, inr (shp a) i -> get a i = get b i) -> a = b.
Proof.
  intros. rewrite (nd_eta a), (nd_eta b); auto. rewrite <- H1.
  unfold tab. f_equal. apply map_ext_in. intros. apply H2, In_all_idx; auto.
Qed.

Lemma total_all_idx : forall a, wf a -> total a = sumZ (map (get a) (all_idx (shp a))).
Proof. intros. unfold total. rewrite dat_map_get at 1; auto. Qed.

Lemma dat_In_get : forall a v, wf a -> In v (dat a) <-> exists i, inr (shp a) i /\ get a i = v.
Proof.
  intros. rewrite dat_map_get; auto. rewrite in_map_iff.
  split; intros [i [? ?]]; exists i; rewrite In_all_idx in *; auto.
Qed.

(* ---------- at_ ---------- *)

Lemma inb_inr : forall s x, inb s x = true <->
  (inr s (map Z.to_nat x) /\ Forall (fun y => 0 <= y) x).
Proof.
  induction s; destruct x; simpl; split; intros H.
  - split; constructor.
  - auto.
  - easy.
  - destruct H as [H _]; inversion H.
  - easy.
  - destruct H as [H _]; inversion H.
  - apply andb_true_iff in H; destruct H. apply IHs in H0. destruct H0.
    apply andb_true_iff in H; destruct H. split; constructor; auto; lia.
  - destruct H. inversion H; inversion H0; subst.
    apply andb_true_iff; split; [apply andb_true_iff; split; lia|apply IHs; auto].
Qed.

Lemma inb_nth : forall s x, inb s x = true <->
  (length x = length s /\ forall n, (n < length s)%nat -> 0 <= nth n x 0 < Z.of_nat (nth n s 0%nat)).
Proof.
  induction s; destruct x; simpl; split; intros H.
  - split; auto; lia.
  - auto.
  - easy.
  - destruct H; easy.
  - easy.
  - destruct H; easy.
  - apply andb_true_iff in H; destruct H. apply IHs in H0. destruct H0.
    apply andb_true_iff in H; destruct H. split; [lia|]. intros [|n] ?; [lia|]. apply H1; lia.
  - destruct H. rewrite andb_true_iff, IHs, andb_true_iff. split.
    + specialize (H0 0%nat). simpl in H0. lia.
    + split; [lia|]. intros. specialize (H0 (S n)). simpl in H0. apply H0; lia.
Qed.

Lemma inb_length : forall s x, inb s x = true -> length x = length s.
Proof. intros. apply inb_nth in H; tauto. Qed.

Lemma map_to_of : forall i, map Z.to_nat (map Z.of_nat i) = i.
Proof. intros. rewrite map_map. rewrite <- (map_id i) at 2. apply map_ext. intros; lia. Qed.

Lemma map_of_to : forall x, Forall (fun y => 0 <= y) x -> map Z.of_nat (map Z.to_nat x) = x.
Proof. induction 1; simpl; auto. rewrite IHForall. f_equal; lia. Qed.

Lemma map_of_inj : forall i j, map Z.of_nat i = map Z.of_nat j -> i = j.
Proof. intros. rewrite <- (map_to_of i), <- (map_to_of j). congruence. Qed.

Lemma inb_of : forall s i, inb s (map Z.of_nat i) = true <-> inr s i.
Proof.
  intros. rewrite inb_inr, map_to_of. split; [tauto|]. intros; split; auto.
  apply Forall_map. apply Forall_forall. intros; lia.
Qed.

Lemma inb_inv : forall s x, inb s x = true -> exists i, inr s i /\ x = map Z.of_nat i.
Proof.
  intros. apply inb_inr in H. destruct H. exists (map Z.to_nat x).
  rewrite map_of_to; auto.
Qed.

Lemma at_of : forall a i, inr (shp a) i -> at_ a (map Z.of_nat i) = get a i.
Proof.
  intros. unfold at_. apply inb_of in H as H'. rewrite H', map_to_of. auto.
Qed.

Lemma at_nz : forall a x, at_ a x <> 0 ->
  exists i, inr (shp a) i /\ x = map Z.of_nat i /\ get a i = at_ a x.
Proof.
  intros. unfold at_ in *. destruct (inb (shp a) x) eqn:E; [|easy].
  apply inb_inv in E. destruct E as [i [? ?]]. exists i; subst.
  rewrite map_to_of in *. auto.
Qed.

Lemma at_tab : forall s f x, at_ (tab s f) x = if inb s x then f (map Z.to_nat x) else 0.
Proof.
  intros. unfold at_. simpl. destruct (inb s x) eqn:E; auto.
  apply inb_inr in E. apply get_tab; tauto.
Qed.

Lemma at_ext : forall a b, wf a -> wf b -> shp a = shp b ->
  (forall x, at_ a x = at_ b x) -> a = b.
Proof.
  intros. apply nd_ext; auto. intros. rewrite <- !at_of; auto. congruence.
Qed.

Lemma total_at : forall a l, wf a -> NoDup l ->
  (forall x, at_ a x <> 0 -> In x l) -> total a = sumZ (map (at_ a) l).
Proof.
  intros. rewrite total_all_idx; auto. symmetry.
  apply sum_support_map with (g := map Z.of_nat); auto.
  - apply NoDup_all_idx.
  - intros; apply map_of_inj; auto.
  - intros. symmetry. apply at_of. apply In_all_idx; auto.
  - intros. apply at_nz in H2. destruct H2 as [i [? [? ?]]]. exists i.
    rewrite In_all_idx; auto.
Qed.

(** Translating the contents does not change the total, nor any sum over a
    translation invariant part. *)
Lemma shift_sum : forall a b s (p : list Z -> bool) ,
  (forall x, length x = length s -> at_ b x = at_ a (addv x s)) ->
  length s = length (shp a) -> length (shp a) = length (shp b) ->
  (forall x, length x = length s -> p (addv x s) = p x) ->
  sumZ (map (get a) (filter (fun i => p (map Z.of_nat i)) (all_idx (shp a)))) =
  sumZ (map (get b) (filter (fun i => p (map Z.of_nat i)) (all_idx (shp b)))).
Proof.
  intros a b s p Hat Hs Hl Hp.
  rewrite !sumZ_filter_if.
  transitivity (sumZ (map (fun x => if p x then at_ a x else 0)
                          (map (map Z.of_nat) (all_idx (shp a))))).
  { rewrite map_map. apply sumZ_map_ext. intros. rewrite at_of; auto. apply In_all_idx; auto. }
  apply sum_support_map with (g := fun i => addv (map Z.of_nat i) s).
  - apply NoDup_map_inj; [|apply NoDup_all_idx]. intros; apply map_of_inj; auto.
  - apply NoDup_all_idx.
  - intros. apply In_all_idx in H, H0. apply inr_length in H, H0.
    apply addv_inj in H1; rewrite ?map_length; try lia. apply map_of_inj; auto.
  - intros. apply In_all_idx in H. pose proof (inr_length _ _ H).
    rewrite Hp by (rewrite map_length; lia).
    rewrite <- Hat by (rewrite map_length; lia).
    rewrite at_of; auto.
  - intros. destruct (p x); [|easy]. apply at_nz in H. destruct H as [i [? [? ?]]].
    subst. apply in_map. apply In_all_idx; auto.
  - intros. destruct (p x) eqn:P; [|easy].
    assert (Lx : length x = length s).
    { apply at_nz in H. destruct H as [i [? [? ?]]]. subst. rewrite map_length.
      apply inr_length in H. lia. }
    rewrite <- (addv_subv x s) in H by auto.
    rewrite <- Hat in H by (rewrite length_subv; auto).
    apply at_nz in H. destruct H as [i [? [? ?]]]. exists i. rewrite In_all_idx.
    split; auto. rewrite <- H0. apply addv_subv; auto.
Qed.

Lemma filter_all : forall {A} (p : A -> bool) l, (forall x, In x l -> p x = true) -> filter p l = l.
Proof. induction l; simpl; intros; auto. rewrite H, IHl; auto. Qed.

Lemma shift_total : forall a b s, wf a -> wf b ->
  (forall x, length x = length s -> at_ b x = at_ a (addv x s)) ->
  length s = length (shp a) -> length (shp a) = length (shp b) -> total b = total a.
Proof.
  intros. rewrite !total_all_idx; auto.
  pose proof (shift_sum a b s (fun _ => true) H1 H2 H3 (fun _ _ => eq_refl)) as E.
  cbv beta in E. rewrite !filter_all in E; auto.
Qed.

Lemma filter_map_comm : forall {A B} (f : A -> B) p l,
  filter p (map f l) = map f (filter (fun x => p (f x)) l).
Proof. induction l; simpl; auto. destruct (p (f a)); simpl; rewrite IHl; auto. Qed.

Lemma filter_flat_map : forall {A B} (f : A -> list B) p l,
  filter p (flat_map f l) = flat_map (fun x => filter p (f x)) l.
Proof. induction l; simpl; auto. rewrite filter_app, IHl; auto. Qed.

Lemma flat_map_nil : forall {A B} (f : A -> list B) l, (forall x, In x l -> f x = []) -> flat_map f l = [].
Proof. induction l; simpl; intros; auto. rewrite H, IHl; auto. Qed.

Lemma filter_none : forall {A} (p : A -> bool) l, (forall x, In x l -> p x = false) -> filter p l = [].
Proof. induction l; simpl; intros; auto. rewrite H, IHl; auto. Qed.

Lemma filter_head_all_idx : forall d s t, (t < d)%nat ->
  filter (fun i => Nat.eqb (nth 0 i 0%nat) t) (all_idx (d :: s)) = map (cons t) (all_idx s).
Proof.
  intros. simpl. rewrite filter_flat_map.
  replace d with (t + (1 + (d - t - 1)))%nat by lia.
  rewrite !seq_app, !flat_map_app. simpl.
  rewrite (flat_map_nil _ (seq 0 t)), (flat_map_nil _ (seq (t + 1) _)).
  - simpl. rewrite !app_nil_r. apply filter_all. intros x Hx.
    apply in_map_iff in Hx. destruct Hx as [? [? ?]]; subst. simpl. apply Nat.eqb_refl.
  - intros x Hx. apply in_seq in Hx. apply filter_none. intros y Hy.
    apply in_map_iff in Hy. destruct Hy as [? [? ?]]; subst. simpl. apply Nat.eqb_neq. lia.
  - intros x Hx. apply in_seq in Hx. apply filter_none. intros y Hy.
    apply in_map_iff in Hy. destruct Hy as [? [? ?]]; subst. simpl. apply Nat.eqb_neq. lia.
Qed.

Lemma total_type_filter : forall a t, (0 < length (shp a))%nat -> (t < hd 0%nat (shp a))%nat ->
  total_type a t =
  sumZ (map (get a) (filter (fun i => Nat.eqb (nth 0 i 0%nat) t) (all_idx (shp a)))).
Proof.
  intros a t. destruct a as [[|d s] l]; cbn [length shp hd]; intros; [lia|].
  unfold total_type. cbn [tl shp]. rewrite filter_head_all_idx; auto. rewrite map_map. auto.
Qed.

Lemma shift_total_type : forall a b s t, 
  (forall x, length x = length s -> at_ b x = at_ a (addv x s)) ->
  length s = length (shp a) -> length (shp a) = length (shp b) -> nth 0 s 0 = 0 ->
  (0 < length (shp a))%nat -> hd 0%nat (shp a) = hd 0%nat (shp b) ->
  (t < hd 0%nat (shp a))%nat ->
  total_type b t = total_type a t.
Proof.
  intros. rewrite !total_type_filter; try lia.
  pose proof (shift_sum a b s (fun x => nth 0 x 0 =? Z.of_nat t) H H0 H1) as E.
  cbv beta in E.
  assert (F : forall l, filter (fun i => nth 0 (map Z.of_nat i) 0 =? Z.of_nat t) l =
              filter (fun i => Nat.eqb (nth 0 i 0%nat) t) l).
  { intros. apply filter_ext. intros i. change 0 with (Z.of_nat 0) at 1. rewrite map_nth.
    destruct (Nat.eqb_spec (nth 0 i 0%nat) t); [rewrite e; apply Z.eqb_refl|apply Z.eqb_neq; lia]. }
  rewrite !F in E. rewrite E; auto.
  intros. rewrite nth_addv by auto. rewrite H2. f_equal. lia.
Qed.

(* ---------- upd ---------- *)

Lemma wf_upd : forall a i v, wf (upd a i v).
Proof. intros; apply wf_tab. Qed.

Lemma shp_upd : forall a i v, shp (upd a i v) = shp a.
Proof. auto. Qed.

Lemma get_upd : forall a i v j, inr (shp a) j ->
  get (upd a i v) j = get a j + if eqln j i then v else 0.
Proof. intros. unfold upd. rewrite get_tab; auto. destruct (eqln j i); lia. Qed.

Lemma at_upd : forall a i v x, inr (shp a) i ->
  at_ (upd a i v) x = at_ a x + if eqlZ x (map Z.of_nat i) then v else 0.
Proof.
  intros. unfold upd. rewrite at_tab. unfold at_. destruct (inb (shp a) x) eqn:E.
  - apply inb_inv in E. destruct E as [j [Hj ->]]. rewrite map_to_of.
    destruct (eqln j i) eqn:E1.
    + apply eqln_eq in E1; subst. 
      assert (eqlZ (map Z.of_nat i) (map Z.of_nat i) = true) by (apply eqlZ_eq; auto).
      rewrite H0. auto.
    + destruct (eqlZ _ _) eqn:E2; [|lia]. apply eqlZ_eq, map_of_inj in E2. subst.
      assert (eqln i i = true) by (apply eqln_eq; auto). congruence.
  - destruct (eqlZ _ _) eqn:E2; [|lia]. apply eqlZ_eq in E2. subst.
    apply inb_of in H. congruence.
Qed.

Lemma sum_indicator : forall (l : list (list nat)) i v, NoDup l -> In i l ->
  sumZ (map (fun j => if eqln j i then v else 0) l) = v.
Proof.
  induction l; simpl; intros; [easy|]. inversion H; subst. destruct H0.
  - subst. assert (eqln i i = true) by (apply eqln_eq; auto). rewrite H0.
    rewrite sumZ_map_zero; [lia|]. intros.
    destruct (eqln x i) eqn:E; auto. apply eqln_eq in E; subst; easy.
  - rewrite IHl; auto. destruct (eqln a i) eqn:E; [|lia].
    apply eqln_eq in E; subst; easy.
Qed.

Lemma total_upd : forall a i v, wf a -> inr (shp a) i -> total (upd a i v) = total a + v.
Proof.
  intros. rewrite !total_all_idx; [|auto|apply wf_upd]. rewrite shp_upd.
  rewrite sumZ_map_ext with (g := fun j => get a j + if eqln j i then v else 0).
  - rewrite sumZ_map_add, sum_indicator; auto. apply NoDup_all_idx. apply In_all_idx; auto.
  - intros. apply get_upd. apply In_all_idx; auto.
Qed.

Lemma total_type_upd : forall a i v t, wf a -> inr (shp a) i -> (0 < length (shp a))%nat ->
  (t < hd 0%nat (shp a))%nat ->
  total_type (upd a i v) t = total_type a t + if Nat.eqb (nth 0 i 0%nat) t then v else 0.
Proof.
  intros. rewrite !total_type_filter; auto. rewrite shp_upd.
  rewrite sumZ_map_ext with (g := fun j => get a j + if eqln j i then v else 0).
  2:{ intros. apply get_upd. apply filter_In in H3. apply In_all_idx; tauto. }
  rewrite sumZ_map_add. f_equal.
  destruct (Nat.eqb (nth 0 i 0%nat) t) eqn:E.
  - apply sum_indicator; [apply NoDup_filter, NoDup_all_idx|].
    apply filter_In. split; auto. apply In_all_idx; auto.
  - apply sumZ_map_zero. intros. apply filter_In in H3. destruct H3.
    destruct (eqln x i) eqn:E2; auto. apply eqln_eq in E2; subst. congruence.
Qed.

(* ---------- slice ---------- *)

Lemma inb_setn : forall s ax lo len x, (ax < length s)%nat -> (lo + len <= nth ax s 0)%nat ->
  inb (setn s ax len) x =
  (0 <=? nth ax x 0) && (nth ax x 0 <? Z.of_nat len)
  && inb s (setn x ax (nth ax x 0 + Z.of_nat lo)).
Proof.
  induction s; intros ax lo len x Hax Hlo; simpl in Hax; [lia|].
  destruct ax; simpl in *.
  - destruct x as [|z x]; simpl; [rewrite andb_false_r; auto|].
    destruct (0 <=? z) eqn:E1; simpl; auto.
    destruct (z <? Z.of_nat len) eqn:E2; simpl; auto.
    replace (0 <=? z + Z.of_nat lo) with true by lia.
    replace (z + Z.of_nat lo <? Z.of_nat a) with true by lia. auto.
  - destruct x as [|z x]; simpl; [rewrite andb_false_r; auto|].
    rewrite IHs with (lo := lo) by lia.
    destruct (0 <=? nth ax x 0), (nth ax x 0 <? Z.of_nat len),
      (0 <=? z), (z <? Z.of_nat a); simpl; auto.
Qed.

Lemma wf_slice : forall a ax lo len, wf (slice a ax lo len).
Proof. intros; apply wf_tab. Qed.

Lemma shp_slice : forall a ax lo len, shp (slice a ax lo len) = setn (shp a) ax len.
Proof. auto. Qed.

Lemma at_slice : forall a ax lo len x, (ax < length (shp a))%nat ->
  (lo + len <= nth ax (shp a) 0)%nat ->
  at_ (slice a ax lo len) x =
  if (0 <=? nth ax x 0) && (nth ax x 0 <? Z.of_nat len)
  then at_ a (setn x ax (nth ax x 0 + Z.of_nat lo)) else 0.
Proof.
  intros. unfold slice. rewrite at_tab. rewrite inb_setn with (lo := lo); auto.
  destruct (0 <=? nth ax x 0) eqn:E1; simpl; auto.
  destruct (nth ax x 0 <? Z.of_nat len) eqn:E2; simpl; auto.
  unfold at_. destruct (inb (shp a) _) eqn:E; auto.
  f_equal. rewrite map_setn. f_equal.
  replace (nth ax (map Z.to_nat x) 0%nat) with (Z.to_nat (nth ax x 0))
    by (symmetry; apply (map_nth Z.to_nat x 0 ax)). lia.
Qed.

(* ---------- pad ---------- *)

Lemma inb_pad : forall s p x, length p = length s ->
  inb s (subv x (map (fun q => Z.of_nat (fst q)) p)) = true -> length x = length s ->
  inb (map (fun dp => (fst (snd dp) + fst dp + snd (snd dp))%nat) (combine s p)) x = true.
Proof.
  induction s; destruct p, x; simpl; intros; try easy; try lia.
  unfold subv in *; simpl in *.
  apply andb_true_iff in H0. destruct H0. apply andb_true_iff in H0. destruct H0.
  rewrite IHs; auto. rewrite andb_true_r. destruct p as [b c]; simpl in *.
  apply andb_true_iff; split; lia.
Qed.

Lemma wf_pad : forall a p, wf (pad a p).
Proof. intros; apply wf_tab. Qed.

Lemma at_pad : forall a p x, length p = length (shp a) -> length x = length (shp a) ->
  at_ (pad a p) x = at_ a (subv x (map (fun q => Z.of_nat (fst q)) p)).
Proof.
  intros. unfold pad. rewrite at_tab.
  destruct (inb (map _ _) x) eqn:E.
  - apply inb_inr in E. destruct E. rewrite map_of_to; auto.
  - unfold at_. destruct (inb (shp a) _) eqn:E2; auto.
    apply inb_pad in E2; auto. congruence.
Qed.

Lemma length_shp_pad : forall a p, length p = length (shp a) -> length (shp (pad a p)) = length (shp a).
Proof. intros. simpl. rewrite map_length, combine_length. lia. Qed.

Lemma nth_shp_pad : forall a p n, length p = length (shp a) -> (n < length (shp a))%nat ->
  nth n (shp (pad a p)) 0%nat =
  (fst (nth n p (0,0)%nat) + nth n (shp a) 0 + snd (nth n p (0,0)%nat))%nat.
Proof.
  intros. simpl. rewrite nth_map_in with (d := (0%nat, (0,0)%nat)).
  - rewrite combine_nth; auto.
  - rewrite combine_length; lia.
Qed.
