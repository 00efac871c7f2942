(** The number of generalized equations in closed form (C11). *)
From Coq Require Import ZArith List Bool Lia Factorial.
From Verif Require Import Base NdArray Config Spec Model Space Spec_space Space_proofs Count_proofs.
Import ListNotations.
Open Scope Z_scope.

Lemma binom_fact : forall a b, binom (a + b) b * (Z.of_nat (fact a) * Z.of_nat (fact b)) = Z.of_nat (fact (a + b)).
Proof.
  induction a as [|a IHa]; induction b as [|b IHb].
  - reflexivity.
  - cbn [Nat.add] in *. cbn [binom]. rewrite (binom_gt b (S b)) by lia. change (fact (S b)) with (S b * fact b)%nat. rewrite Nat2Z.inj_mul. cbn [fact] in *. nia.
  - rewrite Nat.add_0_r, binom_0. change (fact 0) with 1%nat. lia.
  - replace (S a + S b)%nat with (S (a + S b)) in * by lia. cbn [binom]. specialize (IHa (S b)). replace (S a + b)%nat with (a + S b)%nat in IHb by lia.
    change (fact (S (a + S b))) with (S (a + S b) * fact (a + S b))%nat. rewrite Nat2Z.inj_mul. change (fact (S a)) with (S a * fact a)%nat in *. change (fact (S b)) with (S b * fact b)%nat in *. rewrite !Nat2Z.inj_mul in *.
    set (x := binom (a + S b) b) in *. set (y := binom (a + S b) (S b)) in *. set (p := Z.of_nat (fact a)) in *. set (q := Z.of_nat (fact b)) in *. set (r := Z.of_nat (fact (a + S b))) in *. clearbody x y p q r.
    replace (Z.of_nat (S (a + S b))) with (Z.of_nat (S a) + Z.of_nat (S b)) by lia. 
    transitivity (Z.of_nat (S b) * (x * (Z.of_nat (S a) * p * q)) + Z.of_nat (S a) * (y * (p * (Z.of_nat (S b) * q)))); [ring|]. rewrite IHb, IHa. ring.
Qed.
Lemma binom_sym : forall a b, binom (a + b) b = binom (a + b) a.
Proof.
  intros a b. pose proof (binom_fact a b) as A. pose proof (binom_fact b a) as B. rewrite (Nat.add_comm b a) in B. pose proof (lt_O_fact a) as Ha. pose proof (lt_O_fact b) as Hb.
  apply (Z.mul_reg_r _ _ (Z.of_nat (fact a) * Z.of_nat (fact b))); [apply Z.neq_mul_0; lia|]. rewrite A, <- B. ring.
Qed.

Lemma term_two : forall m p, 1 <= m -> combinatorics_term m (Z.of_nat p + 2) = binom (p + Z.to_nat (m - 1)) (Z.to_nat (m - 1)).
Proof.
  intros m p Hm. set (j := Z.to_nat (m - 1)). assert (Em : m = Z.of_nat j + 1) by lia. clearbody j. rewrite Em. unfold combinatorics_term. destruct (Z.eqb_spec (Z.of_nat j + 1) 1) as [E|E]; cbn [orb]; [assert (j = 0%nat) by lia; subst j; rewrite binom_0; reflexivity|].
  destruct (Z.eqb_spec (Z.of_nat p + 2) 2) as [E'|E'].
  - assert (p = 0%nat) by lia. subst p. rewrite (binom_sym 0 j). rewrite binom_0. reflexivity.
  - unfold comb. replace (Z.of_nat p + 2 - 2 <? 0) with false by lia. replace (Z.of_nat j + 1 + (Z.of_nat p + 2) - 3 <? 0) with false by lia. cbn [orb]. replace (Z.to_nat (Z.of_nat j + 1 + (Z.of_nat p + 2) - 3)) with (p + j)%nat by lia. replace (Z.to_nat (Z.of_nat p + 2 - 2)) with p by lia. symmetry. apply binom_sym.
Qed.
Lemma term_one : forall m, 1 <= m -> combinatorics_term m 1 = if m =? 1 then 1 else 0.
Proof. intros m Hm. unfold combinatorics_term. destruct (Z.eqb_spec m 1); reflexivity. Qed.

Lemma sum_split : forall (f g : Z -> Z) l, sumZ (map (fun x => f x + g x) l) = sumZ (map f l) + sumZ (map g l).
Proof. intros f g l. unfold sumZ. induction l as [|x l IH]; cbn [map fold_right]; [reflexivity|]. rewrite IH. ring. Qed.
Lemma range_1 : forall n, 1 <= n -> range 1 (n + 1) = map (fun j => Z.of_nat j + 1) (seq 0 (Z.to_nat n)).
Proof. intros n Hn. unfold range. replace (Z.to_nat (n + 1 - 1)) with (Z.to_nat n) by lia. apply map_ext. intros j. lia. Qed.

(** The inner sums, over the extents. *)
Lemma column_two : forall M p, 1 <= M -> sumZ (map (fun m => combinatorics_term m (Z.of_nat p + 2)) (range 1 (M + 1))) = binom (Z.to_nat M + p) (S p).
Proof.
  intros M p HM. rewrite (range_1 M HM), map_map. assert (E : Z.to_nat M = S (Z.to_nat (M - 1))) by lia. rewrite E. set (s := Z.to_nat (M - 1)). clearbody s.
  rewrite (map_ext_in _ (fun j => binom (p + j) j)).
  - rewrite hockey. replace (S s + p)%nat with (S p + s)%nat by lia. apply binom_sym.
  - intros j _. rewrite term_two by lia. replace (Z.to_nat (Z.of_nat j + 1 - 1)) with j by lia. reflexivity.
Qed.
Lemma column_one : forall M, 1 <= M -> sumZ (map (fun m => combinatorics_term m 1) (range 1 (M + 1))) = 1.
Proof.
  intros M HM. rewrite (range_1 M HM), map_map. assert (E : Z.to_nat M = S (Z.to_nat (M - 1))) by lia. rewrite E. cbn [seq map]. unfold sumZ. cbn [fold_right]. rewrite term_one by lia. change (Z.of_nat 0 + 1 =? 1) with true.
  assert (Z0 : forall l, (forall j, In j l -> (1 <= j)%nat) -> fold_right Z.add 0 (map (fun j => combinatorics_term (Z.of_nat j + 1) 1) l) = 0).
  { induction l as [|j l IH]; intros H; cbn [map fold_right]; [reflexivity|]. rewrite IH by (intros i Hi; apply H; right; exact Hi). rewrite term_one by lia. specialize (H j (or_introl eq_refl)). replace (Z.of_nat j + 1 =? 1) with false by lia. reflexivity. }
  rewrite Z0; [reflexivity|]. intros j Hj. apply in_seq in Hj. lia.
Qed.

Lemma swap : forall (f : Z -> Z -> Z) l l', sumZ (map (fun x => sumZ (map (f x) l')) l) = sumZ (map (fun y => sumZ (map (fun x => f x y) l)) l').
Proof.
  intros f l l'. induction l as [|x l IH].
  - cbn [map]. change (sumZ []) with 0. induction l' as [|y l' IH']; [reflexivity|]. cbn [map]. unfold sumZ in *. cbn [fold_right]. rewrite <- IH'. reflexivity.
  - cbn [map]. change (sumZ (sumZ (map (f x) l') :: map (fun x => sumZ (map (f x) l')) l)) with (sumZ (map (f x) l') + sumZ (map (fun x => sumZ (map (f x) l')) l)). rewrite IH, <- sum_split. reflexivity.
Qed.

Lemma one_type : forall M N, 1 <= M -> 1 <= N ->
  sumZ (map (fun m => sumZ (map (combinatorics_term m) (range 1 (N + 1)))) (range 1 (M + 1))) = binom (Z.to_nat M + Z.to_nat (N - 1)) (Z.to_nat (N - 1)).
Proof.
  intros M N HM HN. rewrite swap. rewrite (range_1 N HN). assert (E : Z.to_nat N = S (Z.to_nat (N - 1))) by lia. rewrite E. set (s := Z.to_nat (N - 1)). clearbody s. clear E HN.
  assert (EM : Z.to_nat M = S (Z.to_nat (M - 1))) by lia. rewrite EM, <- hockey, map_map. f_equal. apply map_ext_in. intros [|p] _.
  - change (Z.of_nat 0 + 1) with 1. rewrite (column_one M HM), binom_0. reflexivity.
  - replace (Z.of_nat (S p) + 1) with (Z.of_nat p + 2) by lia. rewrite (column_two M p HM), EM. f_equal. lia.
Qed.

Lemma all_types : forall nbt Ms Ns, (forall t, (t < nbt)%nat -> 1 <= nth t Ms 0 /\ 1 <= nth t Ns 0) ->
  total_generalized_equations Ms Ns nbt = Ok (fold_right Z.mul 1 (map (fun t => binom (Z.to_nat (nth t Ms 0) + Z.to_nat (nth t Ns 0 - 1)) (Z.to_nat (nth t Ns 0 - 1))) (seq 0 nbt))).
Proof.
  intros nbt Ms Ns H. unfold total_generalized_equations. set (F := fun bt => match nth_error Ms bt with Some _ => _ | None => _ end).
  assert (E : forall l, (forall t, In t l -> (t < nbt)%nat) -> mapM F l = Ok (map (fun t => binom (Z.to_nat (nth t Ms 0) + Z.to_nat (nth t Ns 0 - 1)) (Z.to_nat (nth t Ns 0 - 1))) l)).
  { induction l as [|t l IH]; intros Hl; [reflexivity|]. cbn [mapM map]. destruct (H t (Hl t (or_introl eq_refl))) as [A B]. unfold F at 1.
    destruct (nth_error Ms t) as [M|] eqn:EM; [|apply nth_error_None in EM; rewrite nth_overflow in A by exact EM; lia]. destruct (nth_error Ns t) as [N|] eqn:EN; [|apply nth_error_None in EN; rewrite nth_overflow in B by exact EN; lia].
    rewrite (nth_error_nth _ _ 0 EM) in *. rewrite (nth_error_nth _ _ 0 EN) in *. cbn [bind]. rewrite (one_type M N A B), IH by (intros i Hi; apply Hl; right; exact Hi). reflexivity. }
  rewrite E by (intros t Ht; apply in_seq in Ht; lia). reflexivity.
Qed.
