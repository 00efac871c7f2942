(** The quadratic form of a decaying solution of the lattice resolvent equation
    has negative imaginary part (used by C51-C53). *)
From Coq Require Import Reals ZArith List Lra Lia Psatz.
From Verif Require Import Ring Cplx Physics.
From Verif Require Physics_proofs.
Import ListNotations.
Open Scope list_scope.
Open Scope R_scope.

Definition Cconj (z : C) : C := (Re z, - Im z).
Definition Csum (l : list C) : C := fold_right Cadd C0 l.
Definition Rsum (l : list R) : R := fold_right Rplus 0 l.

Lemma Im_sum : forall l, Im (Csum l) = Rsum (map Im l).
Proof. induction l as [|z l IH]; [reflexivity|]. change (Im z + Im (Csum l) = Im z + Rsum (map Im l)). rewrite IH. reflexivity. Qed.

Definition vanishes (f : Z -> C) : Prop := forall eps, 0 < eps -> exists N, forall n, (N <= Z.abs n)%Z -> Cabs (f n) <= eps.

(** Sum of [n] consecutive values from [lo]. *)
Fixpoint W (f : Z -> R) (lo : Z) (n : nat) : R :=
  match n with O => 0 | S n => W f lo n + f (lo + Z.of_nat n)%Z end.

Lemma W_ext : forall f g lo n, (forall x, f x = g x) -> W f lo n = W g lo n.
Proof. intros f g lo n H. induction n as [|n IH]; cbn [W]; [reflexivity|]. rewrite IH, H. reflexivity. Qed.

Lemma W_add : forall f g lo n, W (fun x => f x + g x) lo n = W f lo n + W g lo n.
Proof. intros. induction n as [|n IH]; cbn [W]; [lra|]. rewrite IH. lra. Qed.

Lemma W_0 : forall lo n, W (fun _ => 0) lo n = 0.
Proof. intros. induction n as [|n IH]; cbn [W]; [reflexivity|]. rewrite IH. lra. Qed.

Lemma W_scal : forall k f lo n, W (fun x => k * f x) lo n = k * W f lo n.
Proof. intros. induction n as [|n IH]; cbn [W]; [lra|]. rewrite IH. lra. Qed.

Lemma W_telescope : forall c lo n, W (fun x => c x - c (x - 1)%Z) lo n = c (lo + Z.of_nat n - 1)%Z - c (lo - 1)%Z.
Proof.
  intros c lo n. induction n as [|n IH].
  - cbn [W]. replace (lo + Z.of_nat 0 - 1)%Z with (lo - 1)%Z by lia. lra.
  - cbn [W]. rewrite IH. replace (lo + Z.of_nat (S n) - 1)%Z with (lo + Z.of_nat n)%Z by lia. lra.
Qed.

Lemma W_nonneg : forall f lo n, (forall x, 0 <= f x) -> 0 <= W f lo n.
Proof. intros f lo n H. induction n as [|n IH]; cbn [W]; [lra|]. pose proof (H (lo + Z.of_nat n)%Z). lra. Qed.

Lemma W_le : forall f lo n x, (forall x, 0 <= f x) -> (lo <= x < lo + Z.of_nat n)%Z -> f x <= W f lo n.
Proof.
  intros f lo n x H B. induction n as [|n IH]; [lia|]. cbn [W]. pose proof (W_nonneg f lo n H) as P.
  destruct (Z.eq_dec x (lo + Z.of_nat n)) as [->|N]; [lra|]. pose proof (H (lo + Z.of_nat n)%Z). enough (f x <= W f lo n) by lra. apply IH. lia.
Qed.

Lemma W_sub : forall f lo n ns, (forall x, 0 <= f x) -> NoDup ns -> (forall x, In x ns -> lo <= x < lo + Z.of_nat n)%Z -> Rsum (map f ns) <= W f lo n.
Proof.
  intros f lo n. induction n as [|n IH]; intros ns H ND B.
  - destruct ns as [|x ns]; [cbn; lra|]. specialize (B x (or_introl eq_refl)). lia.
  - cbn [W]. set (y := (lo + Z.of_nat n)%Z) in *. destruct (in_dec Z.eq_dec y ns) as [Y|Y].
    + destruct (in_split y ns Y) as [l1 [l2 E]]. subst ns. apply NoDup_remove in ND. destruct ND as [ND NI].
      assert (X : Rsum (map f (l1 ++ y :: l2)) = f y + Rsum (map f (l1 ++ l2))).
      { clear. induction l1 as [|x l1 IH]; [reflexivity|]. cbn [app map Rsum fold_right]. fold (Rsum (map f (l1 ++ y :: l2))). fold (Rsum (map f (l1 ++ l2))). rewrite IH. lra. }
      rewrite X. enough (Rsum (map f (l1 ++ l2)) <= W f lo n) by lra. apply IH; [exact H|exact ND|]. intros x Hx.
      assert (x <> y) by (intros ->; contradiction). assert (In x (l1 ++ y :: l2)) by (apply in_app_iff in Hx; apply in_app_iff; cbn [In]; tauto).
      specialize (B x ltac:(assumption)). unfold y in *. lia.
    + enough (Rsum (map f ns) <= W f lo n) by (pose proof (H y); lra). apply IH; [exact H|exact ND|]. intros x Hx.
      assert (x <> y) by (intros ->; contradiction). specialize (B x Hx). unfold y in *. lia.
Qed.

Lemma W_point : forall (v : Z -> R) y lo n, (lo <= y < lo + Z.of_nat n)%Z -> W (fun x => if Z.eq_dec (x - y) 0 then v x else 0) lo n = v y.
Proof.
  intros v y lo n. induction n as [|n IH]; intros B; [lia|]. cbn [W]. destruct (Z.eq_dec (lo + Z.of_nat n - y) 0) as [E|E].
  - assert (EY : (lo + Z.of_nat n)%Z = y) by lia. assert (Z0 : W (fun x => if Z.eq_dec (x - y) 0 then v x else 0) lo n = 0).
    { clear IH B. assert (G : forall k, (k <= n)%nat -> W (fun x => if Z.eq_dec (x - y) 0 then v x else 0) lo k = 0).
      { induction k as [|k IH]; intros Hk; [reflexivity|]. cbn [W]. rewrite IH by lia. destruct (Z.eq_dec (lo + Z.of_nat k - y) 0); [lia|lra]. }
      apply G. lia. }
    rewrite Z0, EY. lra.
  - rewrite IH by lia. lra.
Qed.

Section Toeplitz.
Variable g : Z -> C.
Variables w eta t : R.
Hypothesis Heta : 0 < eta.
Hypothesis Hres : forall d : Z, Cadd (Cmul (w, eta) (g d)) (Cmul (RtoC t) (Cadd (g (d + 1)%Z) (g (d - 1)%Z))) = if Z.eq_dec d 0 then C1 else C0.
Hypothesis Hvan : vanishes g.

(** Response to the sources [l] = (strength, position). *)
Definition U (l : list (C * Z)) (n : Z) : C := Csum (map (fun p => Cmul (fst p) (g (n - snd p)%Z)) l).
Definition src (l : list (C * Z)) (n : Z) : C := Csum (map (fun p => if Z.eq_dec (n - snd p) 0 then fst p else C0) l).

Lemma U_src : forall l n, Cadd (Cmul (w, eta) (U l n)) (Cmul (RtoC t) (Cadd (U l (n + 1)) (U l (n - 1)))) = src l n.
Proof.
  intros l n. induction l as [|[s y] l IH].
  - cbn. unfold U, Csum. cbn. apply Ceq; unfold Cadd, Cmul, RtoC, C0, Re, Im; cbn; ring.
  - unfold src in *. unfold U in *. cbn [map Csum fold_right fst snd]. fold (Csum (map (fun p : C * Z => Cmul (fst p) (g (n - snd p))) l)).
    fold (Csum (map (fun p : C * Z => Cmul (fst p) (g (n + 1 - snd p))) l)). fold (Csum (map (fun p : C * Z => Cmul (fst p) (g (n - 1 - snd p))) l)).
    fold (Csum (map (fun p : C * Z => if Z.eq_dec (n - snd p) 0 then fst p else C0) l)). rewrite <- IH.
    pose proof (Hres (n - y)) as H. replace (n + 1 - y)%Z with (n - y + 1)%Z by ring. replace (n - 1 - y)%Z with (n - y - 1)%Z by ring.
    assert (E : (if Z.eq_dec (n - y) 0 then s else C0) = Cmul s (if Z.eq_dec (n - y) 0 then C1 else C0)) by (destruct (Z.eq_dec (n - y) 0); ring).
    rewrite E, <- H. ring.
Qed.

Lemma U_vanishes : forall l, vanishes (U l).
Proof.
  induction l as [|[s y] l IH]; intros eps He.
  - exists 0%Z. intros n _. unfold U, Csum, Cabs. cbn. replace (Cnorm2 C0) with 0 by (unfold Cnorm2, C0; cbn; ring). rewrite sqrt_0. lra.
  - set (k := Cabs s + 1). assert (K : 0 < k) by (unfold k; pose proof (Physics_proofs.Cabs_ge0 s); lra).
    destruct (IH (eps / 2) ltac:(lra)) as [N1 H1]. destruct (Hvan (eps / (2 * k))) as [N2 H2].
    { apply Rdiv_lt_0_compat; lra. }
    exists (Z.max N1 (Z.abs y + N2))%Z. intros n Hn. unfold U. cbn [map Csum fold_right fst snd].
    fold (Csum (map (fun p : C * Z => Cmul (fst p) (g (n - snd p))) l)).
    eapply Rle_trans; [apply Physics_proofs.Cabs_triangle|]. rewrite Physics_proofs.Cabs_mul.
    assert (A : Cabs (g (n - y)) <= eps / (2 * k)) by (apply H2; lia). pose proof (H1 n ltac:(lia)) as B. unfold U in B.
    assert (D : Cabs s * Cabs (g (n - y)) <= k * (eps / (2 * k))).
    { apply Rmult_le_compat; try apply Physics_proofs.Cabs_ge0; [unfold k; lra|exact A]. }
    assert (E : k * (eps / (2 * k)) = eps / 2) by (field; lra). lra.
Qed.

Definition edge (u : Z -> C) (n : Z) : R := Im (Cmul (Cconj (u (n + 1)%Z)) (u n)).

Lemma local : forall l n, Im (Cmul (Cconj (src l n)) (U l n)) = - eta * Cnorm2 (U l n) + t * (edge (U l) n - edge (U l) (n - 1)).
Proof.
  intros l n. rewrite <- U_src. unfold edge. replace (n - 1 + 1)%Z with n by ring.
  destruct (U l n) as [a b], (U l (n + 1)) as [c d], (U l (n - 1)) as [e f]. unfold Cconj, Cmul, Cadd, RtoC, Cnorm2, Re, Im. cbn. ring.
Qed.

Lemma window : forall (u : Z -> C) l lo n, (forall p, In p l -> (lo <= snd p < lo + Z.of_nat n)%Z) ->
  W (fun x => Im (Cmul (Cconj (src l x)) (u x))) lo n = Rsum (map (fun p => Im (Cmul (Cconj (fst p)) (u (snd p)))) l).
Proof.
  intros u l lo n. induction l as [|[s y] l IH]; intros H.
  - cbn [map Rsum fold_right]. rewrite (W_ext _ (fun _ => 0)); [apply W_0|]. intros x. unfold src, Csum, Cconj, Cmul, C0, Re, Im. cbn. ring.
  - cbn [map Rsum fold_right fst snd]. fold (Rsum (map (fun p : C * Z => Im (Cmul (Cconj (fst p)) (u (snd p)))) l)). rewrite <- IH by (intros; apply H; right; assumption).
    rewrite <- (W_point (fun x => Im (Cmul (Cconj s) (u x))) y lo n) by (apply (H (s, y)); left; reflexivity). rewrite <- W_add. apply W_ext.
    intros x. unfold src. cbn [map Csum fold_right fst snd]. fold (Csum (map (fun p : C * Z => if Z.eq_dec (x - snd p) 0 then fst p else C0) l)).
    destruct (Z.eq_dec (x - y) 0); unfold Cconj, Cmul, Cadd, C0, Re, Im; cbn; ring.
Qed.

Lemma edge_small : forall u n e, Cabs (u n) <= e -> Cabs (u (n + 1)%Z) <= e -> Rabs (edge u n) <= e * e.
Proof.
  intros u n e A B. unfold edge. set (z := Cmul (Cconj (u (n + 1)%Z)) (u n)).
  assert (I : Rabs (Im z) <= Cabs z).
  { unfold Cabs. rewrite <- sqrt_Rsqr_abs. apply sqrt_le_1_alt. unfold Rsqr, Cnorm2. pose proof (Rle_0_sqr (Re z)) as Q. unfold Rsqr in Q. lra. }
  assert (M : Cabs z = Cabs (u (n + 1)%Z) * Cabs (u n)).
  { unfold z. rewrite Physics_proofs.Cabs_mul. f_equal. unfold Cabs. f_equal. unfold Cnorm2, Cconj, Re, Im. cbn. ring. }
  pose proof (Physics_proofs.Cabs_ge0 (u n)). pose proof (Physics_proofs.Cabs_ge0 (u (n + 1)%Z)). rewrite M in I.
  eapply Rle_trans; [exact I|]. apply Rmult_le_compat; assumption.
Qed.

Lemma toeplitz_sum : forall l ns, NoDup ns ->
  Rsum (map (fun p => Im (Cmul (Cconj (fst p)) (U l (snd p)))) l) <= - eta * Rsum (map (fun n => Cnorm2 (U l n)) ns).
Proof.
  intros l ns ND. set (Q := Rsum (map (fun p => Im (Cmul (Cconj (fst p)) (U l (snd p)))) l)). set (X0 := Rsum (map (fun n => Cnorm2 (U l n)) ns)).
  destruct (Rle_dec Q (- eta * X0)) as [L|NL]; [exact L|exfalso].
  set (D := Q + eta * X0). assert (HD : 0 < D) by (unfold D; lra).
  set (k := 4 * (Rabs t + 1)). assert (K : 4 <= k) by (unfold k; pose proof (Rabs_pos t); lra).
  set (e := Rmin 1 (D / k)). assert (He : 0 < e) by (apply Rmin_glb_lt; [lra|apply Rdiv_lt_0_compat; lra]).
  destruct (U_vanishes l e He) as [N HN].
  assert (BD : exists b, forall p, In p l -> (Z.abs (snd p) <= b)%Z).
  { clear. induction l as [|[s y] l [b IH]]; [exists 0%Z; intros p []|]. exists (Z.max b (Z.abs y)). intros p [<-|Hp]; [cbn; lia|]. specialize (IH p Hp). lia. }
  destruct BD as [b Hb].
  assert (BD : exists b, forall p, In p ns -> (Z.abs p <= b)%Z).
  { clear. induction ns as [|y l [b IH]]; [exists 0%Z; intros p []|]. exists (Z.max b (Z.abs y)). intros p [<-|Hp]; [cbn; lia|]. specialize (IH p Hp). lia. }
  destruct BD as [b2 Hb2].
  set (M := Z.max (Z.abs N + 2) (Z.max (Z.abs b) (Z.abs b2))). set (n := Z.to_nat (2 * M + 1)).
  assert (Hn : (- M + Z.of_nat n = M + 1)%Z) by (unfold n; rewrite Z2Nat.id; unfold M; lia).
  assert (E : Q = - eta * W (fun x => Cnorm2 (U l x)) (- M) n + t * (edge (U l) M - edge (U l) (- M - 1))).
  { unfold Q. rewrite <- (window (U l) l (- M) n).
    - rewrite (W_ext _ _ _ _ (local l)). rewrite W_add, !W_scal, W_telescope. replace (- M + Z.of_nat n - 1)%Z with M by lia. reflexivity.
    - intros p Hp. specialize (Hb p Hp). rewrite Hn. unfold M. lia. }
  assert (P : X0 <= W (fun x => Cnorm2 (U l x)) (- M) n).
  { apply (W_sub (fun x => Cnorm2 (U l x))); [|exact ND|intros x Hx; specialize (Hb2 x Hx); rewrite Hn; unfold M; lia].
    intros x. unfold Cnorm2. pose proof (Rle_0_sqr (Re (U l x))). pose proof (Rle_0_sqr (Im (U l x))). unfold Rsqr in *. lra. }
  assert (E1 : Rabs (edge (U l) M) <= e * e) by (apply edge_small; apply HN; unfold M; lia).
  assert (E2 : Rabs (edge (U l) (- M - 1)) <= e * e) by (apply edge_small; apply HN; unfold M; lia).
  assert (E3 : e * e <= D / k).
  { assert (e <= 1) by apply Rmin_l. assert (e <= D / k) by apply Rmin_r. nra. }
  assert (E4 : Rabs (t * (edge (U l) M - edge (U l) (- M - 1))) <= Rabs t * (2 * (D / k))).
  { rewrite Rabs_mult. apply Rmult_le_compat_l; [apply Rabs_pos|]. eapply Rle_trans; [apply Rabs_triang|]. rewrite Rabs_Ropp. lra. }
  assert (E5 : Rabs t * (2 * (D / k)) < D).
  { assert (X : Rabs t * (2 * (D / k)) = D * (Rabs t / (2 * (Rabs t + 1)))) by (unfold k; field; pose proof (Rabs_pos t); lra). rewrite X.
    rewrite <- (Rmult_1_r D) at 2. apply Rmult_lt_compat_l; [exact HD|]. apply (Rmult_lt_reg_r (2 * (Rabs t + 1))); [pose proof (Rabs_pos t); lra|].
    unfold Rdiv. rewrite Rmult_assoc, Rinv_l by (pose proof (Rabs_pos t); lra). pose proof (Rabs_pos t). lra. }
  pose proof (Rle_abs (t * (edge (U l) M - edge (U l) (- M - 1)))) as E6. unfold D in *. nra.
Qed.

Lemma toeplitz : forall l n0, Rsum (map (fun p => Im (Cmul (Cconj (fst p)) (U l (snd p)))) l) <= - eta * Cnorm2 (U l n0).
Proof.
  intros l n0. eapply Rle_trans; [apply (toeplitz_sum l [n0]); repeat constructor; intros []|]. cbn [map Rsum fold_right]. lra.
Qed.
End Toeplitz.
