(** Sums over a finite set of states that operators permute up to its boundary:
    the currents between two states cancel, and what a slowly varying weight
    leaves of them (used for C65). *)
From Coq Require Import ZArith Reals List Bool Lia Lra Permutation Classical.
From Verif Require Import Base Spec_spectral Toeplitz_proofs Weight_proofs Energy_proofs Cutoff_proofs.
Import ListNotations.
Open Scope list_scope.

Lemma sub_list : forall {A} (P : A -> Prop) (l : list A), NoDup l ->
  exists l', NoDup l' /\ (forall x, In x l' <-> In x l /\ P x) /\
    (forall f : A -> R, (forall x, In x l -> ~ P x -> f x = 0%R) -> Rsum (map f l) = Rsum (map f l')).
Proof.
  intros A P l. induction l as [|a l IH]; intros ND.
  - exists []. split; [constructor|]. split; [intros x; cbn; tauto|]. reflexivity.
  - inversion ND as [|? ? N1 N2]; subst. destruct (IH N2) as [l' [D [E Q]]]. destruct (classic (P a)) as [Pa|Na].
    + exists (a :: l'). split; [constructor; [|exact D]; rewrite E; tauto|]. split.
      * intros x. cbn [In]. rewrite E. split; [intros [-> | [H1 H2]]; tauto|intros [[-> | H1] H2]; tauto].
      * intros f Z. rewrite !Rsum_cons. rewrite (Q f); [reflexivity|]. intros x Hx. apply Z. right. exact Hx.
    + exists l'. split; [exact D|]. split.
      * intros x. cbn [In]. rewrite E. split; [intros [H1 H2]; tauto|intros [[-> | H1] H2]; tauto].
      * intros f Z. rewrite Rsum_cons, (Z a (or_introl eq_refl) Na). rewrite (Q f); [lra|]. intros x Hx. apply Z. right. exact Hx.
Qed.

Lemma Rsum_ext : forall {A} (f g : A -> R) l, (forall x, In x l -> f x = g x) -> Rsum (map f l) = Rsum (map g l).
Proof. intros A f g l H. f_equal. apply map_ext_in. exact H. Qed.

Lemma Rsum_const : forall {A} (k : R) (l : list A), Rsum (map (fun _ => k) l) = (INR (length l) * k)%R.
Proof.
  induction l as [|x l IH]; [unfold Rsum; cbn [map fold_right length]; change (INR 0) with 0%R; lra|].
  rewrite Rsum_cons, IH. cbn [length]. rewrite S_INR. lra.
Qed.

Lemma NoDup_map_on : forall {A B} (f : A -> B) l, (forall x y, In x l -> In y l -> f x = f y -> x = y) -> NoDup l -> NoDup (map f l).
Proof.
  intros A B f l. induction l as [|x l IH]; intros J ND; [constructor|]. inversion ND as [|? ? N1 N2]; subst. cbn [map]. constructor.
  - intros I. apply in_map_iff in I. destruct I as [y [Ey Hy]]. apply N1. rewrite (J x y); [exact Hy|left; reflexivity|right; exact Hy|symmetry; exact Ey].
  - apply IH; [|exact N2]. intros y z Hy Hz. apply J; right; assumption.
Qed.

Section Tent.
Context {St O : Type}.
Variable L : list St.
Hypothesis L_nodup : NoDup L.
Variable step : O -> St -> St.
Variable f : O -> St -> R.
Variable chi : St -> R.
Variable ms : St -> R.
Hypothesis ms_nonneg : forall s, In s L -> (0 <= ms s)%R.
(** A step either stays in the set, or carries no current where the weight does not vanish. *)
Hypothesis leave : forall o s, In s L -> ~ In (step o s) L -> (chi s * f o s = 0 /\ chi (step o s) * f o s = 0)%R.
Variable mv cc : O -> R.
Hypothesis mv_nonneg : forall o, (0 <= mv o)%R.
Hypothesis cc_nonneg : forall o, (0 <= cc o)%R.

Definition adj (o o' : O) : Prop :=
  forall s, In s L -> In (step o s) L -> step o' (step o s) = s /\ (f o' (step o s) = - f o s)%R.

Definition good (o : O) (s : St) : Prop := In (step o s) L.

Definition near_sum (o : O) : R := Rsum (map (fun s => chi s * f o s)%R L).
Definition far_sum (o : O) : R := Rsum (map (fun s => chi (step o s) * f o s)%R L).

Lemma swap : forall o o', adj o o' -> adj o' o -> near_sum o = (- far_sum o')%R.
Proof.
  intros o o' A A'. unfold near_sum, far_sum.
  destruct (sub_list (good o) L L_nodup) as [l [N [I Q]]]. destruct (sub_list (good o') L L_nodup) as [l' [N' [I' Q']]].
  rewrite (Q (fun s => chi s * f o s)%R) by (intros s Hs Ns; apply (leave o s Hs Ns)).
  rewrite (Q' (fun s => chi (step o' s) * f o' s)%R) by (intros s Hs Ns; apply (leave o' s Hs Ns)).
  assert (P : Permutation (map (step o) l) l').
  { apply NoDup_Permutation; [|exact N'|].
    - apply NoDup_map_on; [|exact N]. intros x y Hx Hy E. apply I in Hx, Hy. destruct Hx as [X1 X2], Hy as [Y1 Y2].
      rewrite <- (proj1 (A x X1 X2)), E. apply (A y Y1 Y2).
    - intros s. rewrite in_map_iff, I'. unfold good. split.
      + intros [x [<- Hx]]. apply I in Hx. destruct Hx as [X1 X2]. rewrite (proj1 (A x X1 X2)). tauto.
      + intros [H1 H2]. exists (step o' s). split; [apply (A' s H1 H2)|]. apply I. split; [exact H2|]. unfold good. rewrite (proj1 (A' s H1 H2)). exact H1. }
  rewrite <- (Rsum_perm _ _ _ P), map_map.
  replace (- Rsum (map (fun s => chi (step o' (step o s)) * f o' (step o s)) l))%R
    with ((-1) * Rsum (map (fun s => chi (step o' (step o s)) * f o' (step o s)) l))%R by ring.
  rewrite <- Rsum_scal. apply Rsum_ext. intros s Hs. apply I in Hs. destruct Hs as [H1 H2]. destruct (A s H1 H2) as [-> ->]. ring.
Qed.

Lemma sums_swap : forall os os', Forall2 (fun o o' => adj o o' /\ adj o' o) os os' ->
  Rsum (map near_sum os) = (- Rsum (map far_sum os'))%R.
Proof.
  intros os os' F. induction F as [|o o' os os' [A A'] F IH]; [unfold Rsum; cbn; lra|].
  rewrite !Rsum_cons, IH, (swap o o' A A'). lra.
Qed.

Lemma step_injective_sum : forall o o', adj o o' -> forall l, NoDup l -> (forall s, In s l -> In s L /\ In (step o s) L) ->
  (Rsum (map (fun s => ms (step o s)) l) <= Rsum (map ms L))%R.
Proof.
  intros o o' A l N I. rewrite <- (map_map (step o) ms). apply Rsum_incl.
  - apply NoDup_map_on; [|exact N]. intros x y Hx Hy E. apply I in Hx, Hy. destruct Hx as [X1 X2], Hy as [Y1 Y2].
    rewrite <- (proj1 (A x X1 X2)), E. apply (A y Y1 Y2).
  - intros s Hs. apply in_map_iff in Hs. destruct Hs as [x [<- Hx]]. apply I, Hx.
  - exact ms_nonneg.
Qed.

Definition slow (o : O) : Prop :=
  forall s, In s L -> In (step o s) L -> (Rabs (chi s - chi (step o s)) <= mv o)%R /\ (Rabs (f o s) <= cc o * (ms s + ms (step o s)) / 2)%R.

Lemma difference : forall o o', adj o o' -> slow o -> (Rabs (near_sum o - far_sum o) <= mv o * cc o * Rsum (map ms L))%R.
Proof.
  intros o o' A W. unfold near_sum, far_sum.
  replace (Rsum (map (fun s => chi s * f o s) L) - Rsum (map (fun s => chi (step o s) * f o s) L))%R
    with (Rsum (map (fun s => (chi s - chi (step o s)) * f o s) L))%R.
  2:{ rewrite (Rsum_ext _ (fun s => chi s * f o s + (-1) * (chi (step o s) * f o s))%R) by (intros; ring).
      rewrite Rsum_add, Rsum_scal. ring. }
  destruct (sub_list (good o) L L_nodup) as [l [N [I Q]]].
  rewrite Q by (intros s Hs Ns; destruct (leave o s Hs Ns); lra).
  assert (B : forall g : St -> R, (Rabs (Rsum (map g l)) <= Rsum (map (fun s => Rabs (g s)) l))%R).
  { intros g. clear. induction l as [|x l IH]; [unfold Rsum; cbn; rewrite Rabs_R0; lra|]. rewrite !Rsum_cons.
    eapply Rle_trans; [apply Rabs_triang|]. lra. }
  eapply Rle_trans; [apply B|].
  eapply Rle_trans; [apply (Rsum_le _ (fun s => (mv o * cc o / 2) * (ms s + ms (step o s)))%R)|].
  { intros s Hs. apply I in Hs. destruct Hs as [H1 H2]. destruct (W s H1 H2) as [W1 W2]. rewrite Rabs_mult.
    replace (mv o * cc o / 2 * (ms s + ms (step o s)))%R with (mv o * (cc o * (ms s + ms (step o s)) / 2))%R by field.
    apply Rmult_le_compat; [apply Rabs_pos|apply Rabs_pos|exact W1|exact W2]. }
  rewrite Rsum_scal, Rsum_add.
  assert (U : forall s, In s l -> In s L /\ In (step o s) L) by (intros s Hs; apply I in Hs; exact Hs).
  pose proof (step_injective_sum o o' A l N U) as H1.
  assert (H2 : (Rsum (map ms l) <= Rsum (map ms L))%R) by (apply Rsum_incl; [exact N|intros s Hs; apply U, Hs|exact ms_nonneg]).
  assert (M : (0 <= mv o * cc o)%R) by (apply Rmult_le_pos; auto).
  replace (mv o * cc o * Rsum (map ms L))%R with (mv o * cc o / 2 * (Rsum (map ms L) + Rsum (map ms L)))%R by field.
  apply Rmult_le_compat_l; lra.
Qed.

(** The whole current seen through the weight. *)
Theorem tent_current : forall os os', Permutation os os' -> Forall2 (fun o o' => adj o o' /\ adj o' o) os os' ->
  (forall o, In o os -> slow o) ->
  (Rabs (Rsum (map near_sum os)) <= Rsum (map (fun o => mv o * cc o) os) / 2 * Rsum (map ms L))%R.
Proof.
  intros os os' P F W. pose proof (sums_swap os os' F) as S. rewrite <- (Rsum_perm far_sum os os' P) in S.
  assert (B : (Rabs (Rsum (map near_sum os) - Rsum (map far_sum os)) <= Rsum (map (fun o => mv o * cc o) os) * Rsum (map ms L))%R).
  { clear S P. induction F as [|o o' os os' [A A'] F IH]; [unfold Rsum; cbn [map fold_right]; rewrite Rminus_0_r, Rabs_R0; lra|].
    rewrite !Rsum_cons. pose proof (difference o o' A (W o (or_introl eq_refl))) as D.
    pose proof (IH (fun x Hx => W x (or_intror Hx))) as D'.
    replace (near_sum o + Rsum (map near_sum os) - (far_sum o + Rsum (map far_sum os)))%R
      with ((near_sum o - far_sum o) + (Rsum (map near_sum os) - Rsum (map far_sum os)))%R by ring.
    eapply Rle_trans; [apply Rabs_triang|]. lra. }
  replace (Rsum (map near_sum os) - Rsum (map far_sum os))%R with (2 * Rsum (map near_sum os))%R in B by lra.
  rewrite Rabs_mult, (Rabs_right 2) in B by lra. lra.
Qed.

(** Balance of the norm through the weight, for a state whose rows hold where the weight does not vanish. *)
Theorem tent_balance : forall (eta : R) (src : St -> R) os os',
  (forall s, In s L -> chi s * (eta * ms s + Rsum (map (fun o => f o s) os)) = chi s * src s)%R ->
  Permutation os os' -> Forall2 (fun o o' => adj o o' /\ adj o' o) os os' -> (forall o, In o os -> slow o) ->
  (eta * Rsum (map (fun s => chi s * ms s) L)
    <= Rsum (map (fun s => chi s * src s) L) + Rsum (map (fun o => mv o * cc o) os) / 2 * Rsum (map ms L))%R.
Proof.
  intros eta src os os' E P F W. pose proof (tent_current os os' P F W) as T.
  assert (X : (eta * Rsum (map (fun s => chi s * ms s) L) + Rsum (map near_sum os) = Rsum (map (fun s => chi s * src s) L))%R).
  { assert (Y : Rsum (map near_sum os) = Rsum (map (fun s => chi s * Rsum (map (fun o => f o s) os))%R L)).
    { clear. induction os as [|o os IH].
      - unfold near_sum. cbn [map]. rewrite (Rsum_ext _ (fun _ => 0%R)); [rewrite Rsum_0; reflexivity|]. intros s _. unfold Rsum. cbn. ring.
      - rewrite Rsum_cons, IH. unfold near_sum. rewrite <- Rsum_add. apply Rsum_ext. intros s _. rewrite Rsum_cons. ring. }
    rewrite Y, <- Rsum_scal, <- Rsum_add. apply Rsum_ext. intros s Hs. rewrite <- (E s Hs). ring. }
  pose proof (Rle_abs (- Rsum (map near_sum os))) as A. rewrite Rabs_Ropp in A. lra.
Qed.
End Tent.
