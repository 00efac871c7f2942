(** One phonon mode in thermal equilibrium (C72): the thermal average of a
    product of creation and annihilation operators, and the vacuum average of
    its thermofield double, satisfy the same recursion (Wick's theorem). *)
From Coq Require Import ZArith Reals List Lia Lra.
From Verif Require Import Base Model.
Import ListNotations.
Open Scope list_scope.
Open Scope R_scope.

(** [amp N w n]: the coefficient of |N> in w |n>, the head of [w] acting first. *)
Fixpoint amp (N : Z) (w : list dagger) (n : Z) : R :=
  match w with
  | [] => if Z.eqb n N then 1 else 0
  | Plus :: w => amp N w (n + 1)
  | Minus :: w => IZR n * amp N w (n - 1)
  end.

(** The same for b = c a + s a'+, b+ = c a+ + s a' on |n, m>, coefficient of the vacuum. *)
Fixpoint tfd (c s : R) (w : list dagger) (n m : Z) : R :=
  match w with
  | [] => if andb (Z.eqb n 0) (Z.eqb m 0) then 1 else 0
  | Plus :: w => c * tfd c s w (n + 1) m + s * IZR m * tfd c s w n (m - 1)
  | Minus :: w => c * IZR n * tfd c s w (n - 1) m + s * tfd c s w n (m + 1)
  end.

Definition same (d e : dagger) : bool := match d, e with Plus, Plus | Minus, Minus => true | _, _ => false end.
(** The words without one of the letters [d]. *)
Fixpoint drops (d : dagger) (w : list dagger) : list (list dagger) :=
  match w with [] => [] | e :: r => (if same d e then [r] else []) ++ map (cons e) (drops d r) end.
Definition lsum {A} (f : A -> R) (l : list A) : R := fold_right (fun x s => f x + s) 0 l.

Lemma lsum_app : forall A (f : A -> R) l l', lsum f (l ++ l') = lsum f l + lsum f l'.
Proof. intros A f l l'. induction l as [|x l IH]; [change (lsum f l' = 0 + lsum f l'); ring|]. change (f x + lsum f (l ++ l') = f x + lsum f l + lsum f l'). rewrite IH. ring. Qed.
Lemma lsum_map : forall A B (g : A -> B) (f : B -> R) l, lsum f (map g l) = lsum (fun x => f (g x)) l.
Proof. intros. induction l as [|x l IH]; [reflexivity|]. cbn [map lsum fold_right]. unfold lsum in IH. rewrite IH. reflexivity. Qed.
Lemma lsum_ext : forall A (f g : A -> R) l, (forall x, In x l -> f x = g x) -> lsum f l = lsum g l.
Proof. intros A f g l H. induction l as [|x l IH]; [reflexivity|]. cbn [lsum fold_right]. fold (lsum f l) (lsum g l). rewrite IH, H; [reflexivity|left; reflexivity|intros y Y; apply H; right; exact Y]. Qed.
Lemma lsum_scal : forall A (f : A -> R) a l, lsum (fun x => a * f x) l = a * lsum f l.
Proof. intros. induction l as [|x l IH]; cbn [lsum fold_right]; [ring|]. fold (lsum (fun x => a * f x) l) (lsum f l). rewrite IH. ring. Qed.
Lemma lsum_plus : forall A (f g : A -> R) l, lsum (fun x => f x + g x) l = lsum f l + lsum g l.
Proof. intros. induction l as [|x l IH]; cbn [lsum fold_right]; [ring|]. fold (lsum (fun x => f x + g x) l) (lsum f l) (lsum g l). rewrite IH. ring. Qed.

Lemma lsum_cons : forall A (f : A -> R) a l, lsum f (a :: l) = f a + lsum f l.
Proof. reflexivity. Qed.

Lemma drops_length : forall d w u, In u (drops d w) -> S (length u) = length w.
Proof.
  intros d w. induction w as [|e w IH]; intros u H; [destruct H|]. cbn [drops] in H. apply in_app_or in H as [H|H].
  - destruct (same d e); [|destruct H]. destruct H as [<-|[]]. reflexivity.
  - apply in_map_iff in H as (v & <- & V). cbn [length]. rewrite (IH v V). reflexivity.
Qed.

(** * The thermal side *)
Lemma amp_last_minus : forall N w n, amp N (w ++ [Minus]) n = IZR (N + 1) * amp (N + 1) w n.
Proof.
  intros N w. induction w as [|[] w IH]; intros n; cbn [app amp].
  - destruct (Z.eqb_spec (n - 1) N), (Z.eqb_spec n (N + 1)); try lia; [subst; replace (n - 1 + 1)%Z with n by lia; ring|ring].
  - apply IH.
  - rewrite IH. ring.
Qed.
Lemma amp_last_plus : forall N w n, amp N (w ++ [Plus]) n = amp (N - 1) w n.
Proof.
  intros N w. induction w as [|[] w IH]; intros n; cbn [app amp].
  - destruct (Z.eqb_spec (n + 1) N), (Z.eqb_spec n (N - 1)); try lia; reflexivity.
  - apply IH.
  - rewrite IH. reflexivity.
Qed.
Lemma amp_below : forall N w n, (N < 0)%Z -> (0 <= n)%Z -> amp N w n = 0.
Proof.
  intros N w. induction w as [|[] w IH]; intros n HN Hn; cbn [amp].
  - destruct (Z.eqb_spec n N); [lia|reflexivity].
  - apply IH; lia.
  - destruct (Z.eq_dec n 0) as [->|]; [ring|]. rewrite IH by lia. ring.
Qed.
Lemma comm_minus : forall N w n, amp N (w ++ [Minus]) n = amp N (Minus :: w) n + lsum (fun u => amp N u n) (drops Plus w).
Proof.
  intros N w. induction w as [|[] w IH]; intros n.
  - cbn. ring.
  - cbn [app drops same]. cbn [app]. rewrite lsum_cons, lsum_map. change (amp N (Plus :: w ++ [Minus]) n) with (amp N (w ++ [Minus]) (n + 1)). rewrite IH. cbn [amp]. replace (n + 1 - 1)%Z with n by lia. replace (n - 1 + 1)%Z with n by lia. rewrite plus_IZR. ring.
  - cbn [app drops same]. rewrite lsum_map. change (amp N (Minus :: w ++ [Minus]) n) with (IZR n * amp N (w ++ [Minus]) (n - 1)). rewrite IH. cbn [amp].
    rewrite lsum_scal. ring.
Qed.
Lemma comm_plus : forall N w n, amp N (w ++ [Plus]) n = amp N (Plus :: w) n - lsum (fun u => amp N u n) (drops Minus w).
Proof.
  intros N w. induction w as [|[] w IH]; intros n.
  - cbn. ring.
  - cbn [app drops same]. rewrite lsum_map. change (amp N (Plus :: w ++ [Plus]) n) with (amp N (w ++ [Plus]) (n + 1)). rewrite IH. cbn [amp]. reflexivity.
  - cbn [app drops same]. cbn [app]. rewrite lsum_cons, lsum_map. change (amp N (Minus :: w ++ [Plus]) n) with (IZR n * amp N (w ++ [Plus]) (n - 1)). rewrite IH. cbn [amp]. rewrite lsum_scal. replace (n + 1 - 1)%Z with n by lia. replace (n - 1 + 1)%Z with n by lia. rewrite plus_IZR. ring.
Qed.

(** * The thermofield double *)
Lemma tfd_plus : forall c s w n m, (0 <= n)%Z -> tfd c s w (n + 1) m = c * lsum (fun u => tfd c s u n m) (drops Minus w).
Proof.
  intros c s w. induction w as [|[] w IH]; intros n m Hn.
  - cbn. destruct (Z.eqb_spec (n + 1) 0); [lia|]. cbn. ring.
  - cbn [drops same app]. rewrite lsum_map. cbn [tfd]. rewrite lsum_plus, !lsum_scal. rewrite (IH (n + 1)%Z), (IH n) by lia. ring.
  - cbn [drops same]. cbn [app]. rewrite lsum_cons, lsum_map. cbn [tfd].
    rewrite lsum_plus, !lsum_scal. rewrite (IH n (m + 1)%Z) by lia. replace (n + 1 - 1)%Z with n by lia. rewrite plus_IZR.
    destruct (Z.eq_dec n 0) as [->|Hn0]; [ring|]. pose proof (IH (n - 1)%Z m ltac:(lia)) as E. replace (n - 1 + 1)%Z with n in E by lia. rewrite E. ring.
Qed.
Lemma tfd_minus : forall c s w n m, (0 <= m)%Z -> tfd c s w n (m + 1) = s * lsum (fun u => tfd c s u n m) (drops Plus w).
Proof.
  intros c s w. induction w as [|[] w IH]; intros n m Hm.
  - cbn. destruct (Z.eqb_spec (m + 1) 0); [lia|]. rewrite Bool.andb_false_r. ring.
  - cbn [drops same]. cbn [app]. rewrite lsum_cons, lsum_map. cbn [tfd].
    rewrite lsum_plus, !lsum_scal. rewrite (IH (n + 1)%Z m) by lia. replace (m + 1 - 1)%Z with m by lia. rewrite plus_IZR.
    destruct (Z.eq_dec m 0) as [->|Hm0]; [ring|]. pose proof (IH n (m - 1)%Z ltac:(lia)) as E. replace (m - 1 + 1)%Z with m in E by lia. rewrite E. ring.
  - cbn [drops same app]. rewrite lsum_map. cbn [tfd]. rewrite lsum_plus, !lsum_scal. rewrite (IH (n - 1)%Z m), (IH n (m + 1)%Z) by lia. ring.
Qed.
Lemma tfd_first_plus : forall c s w, tfd c s (Plus :: w) 0 0 = c * c * lsum (fun u => tfd c s u 0 0) (drops Minus w).
Proof. intros c s w. cbn [tfd]. rewrite (tfd_plus c s w 0 0) by lia. ring. Qed.
Lemma tfd_first_minus : forall c s w, tfd c s (Minus :: w) 0 0 = s * s * lsum (fun u => tfd c s u 0 0) (drops Plus w).
Proof. intros c s w. cbn [tfd]. rewrite (tfd_minus c s w 0 0) by lia. ring. Qed.

(** * Convergence *)
Section Limit.
Variable x : R.
Hypothesis x_pos : 0 < x.
Hypothesis x_lt : x < 1.

Lemma contract : forall p y l, (forall K, p (S K) = x * p K + y K) -> Un_cv y l -> Un_cv p (l / (1 - x)).
Proof.
  intros p y l H Hy. set (L := l / (1 - x)). assert (EL : L = x * L + l) by (unfold L; field; lra).
  intros eps He. destruct (Hy (eps / 2 * (1 - x))) as [K0 HK]; [apply Rmult_lt_0_compat; lra|].
  assert (B : forall i, Rabs (p (K0 + i)%nat - L) <= x ^ i * Rabs (p K0 - L) + eps / 2).
  { induction i as [|i IH]; [rewrite Nat.add_0_r; cbn [pow]; lra|]. replace (K0 + S i)%nat with (S (K0 + i)) by lia. rewrite H.
    replace (x * p (K0 + i)%nat + y (K0 + i)%nat - L) with (x * (p (K0 + i)%nat - L) + (y (K0 + i)%nat - l)) by (rewrite EL at 2; ring).
    eapply Rle_trans; [apply Rabs_triang|]. rewrite Rabs_mult, (Rabs_right x) by lra. specialize (HK (K0 + i)%nat ltac:(lia)). unfold R_dist in HK.
    cbn [pow]. pose proof (Rmult_le_compat_l x _ _ ltac:(lra) IH) as M. lra. }
  destruct (pow_lt_1_zero x) with (y := eps / 2 / (1 + Rabs (p K0 - L))) as [N0 HN].
  - rewrite Rabs_right; lra.
  - apply Rdiv_lt_0_compat; [lra|]. pose proof (Rabs_pos (p K0 - L)). lra.
  - exists (K0 + N0)%nat. intros n Hn. unfold R_dist. replace n with (K0 + (n - K0))%nat by lia. specialize (B (n - K0)%nat). specialize (HN (n - K0)%nat ltac:(lia)).
    rewrite Rabs_right in HN by (apply Rle_ge, pow_le; lra). set (A := Rabs (p K0 - L)) in *. assert (A0 : 0 <= A) by apply Rabs_pos.
    assert (M : x ^ (n - K0) * (1 + A) < eps / 2).
    { apply (Rmult_lt_compat_r (1 + A)) in HN; [|lra]. replace (eps / 2 / (1 + A) * (1 + A)) with (eps / 2) in HN by (field; lra). exact HN. }
    assert (0 <= x ^ (n - K0)) by (apply pow_le; lra). nra.
Qed.

(** The sums over the first levels. *)
Definition upto (w : list dagger) : nat -> R := sum_f_R0 (fun N => x ^ N * amp (Z.of_nat N) w (Z.of_nat N)).

Lemma sum_lsum : forall A (f : A -> nat -> R) l K, sum_f_R0 (fun N => lsum (fun a => f a N) l) K = lsum (fun a => sum_f_R0 (f a) K) l.
Proof.
  intros A f l K. induction l as [|a l IH]; cbn [lsum fold_right].
  - induction K as [|K IK]; [reflexivity|]. cbn [sum_f_R0]. rewrite IK. ring.
  - fold (lsum (fun a => sum_f_R0 (f a) K) l). rewrite <- IH, <- sum_plus. reflexivity.
Qed.
Lemma upto_minus : forall w K, upto (Minus :: w) (S K) = x * upto (Minus :: w) K + x * lsum (fun u => upto u K) (drops Plus w).
Proof.
  intros w K.
  assert (E : upto (Minus :: w) (S K) = x * upto (w ++ [Minus]) K).
  { unfold upto. rewrite decomp_sum by lia. cbn [pred]. rewrite scal_sum. change (Z.of_nat 0) with 0%Z. cbn [amp]. rewrite Rmult_0_l, Rmult_0_r, Rplus_0_l. apply sum_eq. intros i _.
    rewrite amp_last_minus. cbn [amp pow]. replace (Z.of_nat (S i)) with (Z.of_nat i + 1)%Z by lia. replace (Z.of_nat i + 1 - 1)%Z with (Z.of_nat i) by lia. ring. }
  rewrite E, <- Rmult_plus_distr_l. f_equal. unfold upto. rewrite <- sum_lsum, <- sum_plus. apply sum_eq. intros i _. cbv beta. rewrite comm_minus, lsum_scal. ring.
Qed.
Lemma upto_plus : forall w K, upto (Plus :: w) (S K) = x * upto (Plus :: w) K + lsum (fun u => upto u (S K)) (drops Minus w).
Proof.
  intros w K.
  assert (E : upto (w ++ [Plus]) (S K) = x * upto (Plus :: w) K).
  { unfold upto. rewrite decomp_sum by lia. cbn [pred]. rewrite scal_sum. rewrite amp_last_plus, amp_below by (cbn; lia). rewrite Rmult_0_r, Rplus_0_l. apply sum_eq. intros i _.
    rewrite amp_last_plus. cbn [amp pow]. replace (Z.of_nat (S i)) with (Z.of_nat i + 1)%Z by lia. replace (Z.of_nat i + 1 - 1)%Z with (Z.of_nat i) by lia. ring. }
  rewrite <- E. unfold upto. rewrite <- sum_lsum, <- sum_plus. apply sum_eq. intros i _. cbv beta. rewrite comm_plus, lsum_scal. ring.
Qed.
Lemma cv_lsum : forall A (f : A -> nat -> R) (g : A -> R) l, (forall a, In a l -> Un_cv (f a) (g a)) -> Un_cv (fun K => lsum (fun a => f a K) l) (lsum g l).
Proof.
  intros A f g l. induction l as [|a l IH]; intros H; cbn [lsum fold_right].
  - intros eps He. exists O. intros n _. unfold R_dist. rewrite Rminus_0_r, Rabs_R0. exact He.
  - apply (CV_plus (f a) (fun K => lsum (fun a => f a K) l)); [apply H; left; reflexivity|apply IH; intros b B; apply H; right; exact B].
Qed.
Lemma cv_shift : forall u l, Un_cv u l -> Un_cv (fun K => u (S K)) l.
Proof. intros u l H eps He. destruct (H eps He) as [N HN]. exists N. intros n Hn. apply HN. lia. Qed.
Lemma cv_scal : forall u l a, Un_cv u l -> Un_cv (fun K => a * u K) (a * l).
Proof.
  intros u l a H. apply (CV_mult (fun _ => a) u); [|exact H]. intros eps He. exists O. intros n _. unfold R_dist. rewrite Rminus_diag_eq, Rabs_R0 by reflexivity. exact He.
Qed.

Theorem wick : forall c s, c * c = 1 / (1 - x) -> s * s = x / (1 - x) -> forall w, Un_cv (upto w) (tfd c s w 0 0 / (1 - x)).
Proof.
  intros c s Hc Hs w. remember (length w) as L eqn:EL. revert w EL. induction L as [L IH] using (well_founded_induction Wf_nat.lt_wf). intros w EL.
  destruct w as [|[] w].
  - assert (E : forall K, upto [] (S K) = x * upto [] K + 1).
    { intros K. unfold upto. rewrite decomp_sum by lia. cbn [pred]. rewrite scal_sum. cbn [amp]. rewrite !Z.eqb_refl. cbn [pow]. rewrite (Rplus_comm _ 1). replace (1 * 1) with 1 by ring. f_equal.
      apply sum_eq. intros i _. rewrite !Z.eqb_refl. cbn [pow]. ring. }
    cbn [tfd]. apply (contract _ (fun _ => 1)); [exact E|]. intros eps He. exists O. intros n _. unfold R_dist. rewrite Rminus_diag_eq, Rabs_R0 by reflexivity. exact He.
  - rewrite tfd_first_plus, Hc. replace (1 / (1 - x) * lsum (fun u => tfd c s u 0 0) (drops Minus w) / (1 - x)) with (lsum (fun u => tfd c s u 0 0 / (1 - x)) (drops Minus w) / (1 - x)).
    + apply (contract _ (fun K => lsum (fun u => upto u (S K)) (drops Minus w))); [intros K; apply upto_plus|]. apply cv_lsum. intros u U. apply cv_shift. apply (IH (length u)); [|reflexivity].
      pose proof (drops_length _ _ _ U). subst L. cbn [length]. lia.
    + rewrite (lsum_ext _ _ (fun u => / (1 - x) * tfd c s u 0 0)) by (intros; unfold Rdiv; ring). rewrite lsum_scal. field. lra.
  - rewrite tfd_first_minus, Hs. replace (x / (1 - x) * lsum (fun u => tfd c s u 0 0) (drops Plus w) / (1 - x)) with (x * lsum (fun u => tfd c s u 0 0 / (1 - x)) (drops Plus w) / (1 - x)).
    + apply (contract _ (fun K => x * lsum (fun u => upto u K) (drops Plus w))); [intros K; apply upto_minus|]. apply cv_scal, cv_lsum. intros u U. apply (IH (length u)); [|reflexivity].
      pose proof (drops_length _ _ _ U). subst L. cbn [length]. lia.
    + rewrite (lsum_ext _ _ (fun u => / (1 - x) * tfd c s u 0 0)) by (intros; unfold Rdiv; ring). rewrite lsum_scal. field. lra.
Qed.

(** With normalised weights. *)
Corollary wick_sum : forall c s w, c * c = 1 / (1 - x) -> s * s = x / (1 - x) ->
  infinite_sum (fun N => (1 - x) * x ^ N * amp (Z.of_nat N) w (Z.of_nat N)) (tfd c s w 0 0).
Proof.
  intros c s w Hc Hs. assert (U : Un_cv (fun K => (1 - x) * upto w K) (tfd c s w 0 0)).
  { replace (tfd c s w 0 0) with ((1 - x) * (tfd c s w 0 0 / (1 - x))) by (field; lra). apply cv_scal, wick; assumption. }
  intros eps He. destruct (U eps He) as [N HN]. exists N. intros n Hn. specialize (HN n Hn). unfold upto in HN. rewrite scal_sum in HN.
  erewrite sum_eq; [exact HN|]. intros i _. cbn beta. ring.
Qed.
End Limit.
