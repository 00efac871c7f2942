(** Poisson's formula for the Green's function (C86): the values on the line
    Im z = y, averaged with a Lorentzian of width d about w, give the value at
    w + i (y + d). *)
From Coq Require Import ZArith Reals Ratan RiemannInt List Lra Lia Classical.
From Verif Require Import Base Cplx Physics Physics_proofs Cutoff_proofs Walk_proofs Moments_proofs Band_proofs Holo_proofs Divided_proofs Contour_proofs Sum_proofs Spec_blur.
Import ListNotations.
Open Scope R_scope.

Lemma le_any : forall x a, (forall e, 0 < e -> x <= a + e) -> x <= a.
Proof. intros x a H. destruct (Rle_lt_dec x a) as [L|L]; [exact L|]. specialize (H ((x - a) / 2) ltac:(lra)). lra. Qed.

Lemma abs_tri : forall a b c : C, Cabs (Csub a c) <= Cabs (Csub a b) + Cabs (Csub b c).
Proof. intros a b c. replace (Csub a c) with (Cadd (Csub a b) (Csub b c)) by ring. apply Cabs_triangle. Qed.
Lemma abs_sym : forall a b : C, Cabs (Csub a b) = Cabs (Csub b a).
Proof. intros a b. replace (Csub a b) with (Copp (Csub b a)) by ring. apply Cabs_opp. Qed.
Lemma abs_parts : forall z, Cabs z <= Rabs (Re z) + Rabs (Im z).
Proof.
  intros z. pose proof (Rabs_pos (Re z)). pose proof (Rabs_pos (Im z)). apply Rsqr_incr_0; [|apply Cabs_ge0|lra]. unfold Rsqr. rewrite Cabs_sq. unfold Cnorm2.
  pose proof (Rsqr_abs (Re z)) as A. pose proof (Rsqr_abs (Im z)) as B. unfold Rsqr in *. nra.
Qed.
Lemma dec_C : forall a b : C, {a = b} + {a <> b}.
Proof. exact Cdec. Qed.

Section Analytic.
Variable g : C -> C.
Variable y0 : R.
Hypothesis Hy : 0 < y0.
Hypothesis B : forall (l : list C) (a : C), NoDup (a :: l) -> (forall p, In p (a :: l) -> y0 <= snd p) -> Cabs (divided g l a) <= (/ y0) ^ S (length l).

Notation up p := (y0 <= snd (p : C)).
Let i0 := / y0.
Lemma i0_pos : 0 < i0.
Proof. apply Rinv_0_lt_compat. exact Hy. Qed.

Lemma divided_cons : forall l a b, a <> b -> Csub (divided g l a) (divided g l b) = Cmul (Csub a b) (divided g (b :: l) a).
Proof.
  intros l a b N. cbn [divided]. pose proof (Cinv_l _ (Csub_nz _ _ N)) as I. set (d := Csub a b) in *. set (u := divided g l a). set (v := divided g l b). set (i := Cinv d) in *.
  transitivity (Cmul (Cmul i d) (Csub u v)); [rewrite I|]; ring.
Qed.
Lemma divided_sym : forall a b, a <> b -> divided g [b] a = divided g [a] b.
Proof. intros a b N. cbn [divided]. field. split; [apply (Csub_nz b a); auto|apply (Csub_nz a b N)]. Qed.

(** Bounds with one, two, three and four points. *)
Lemma B1 : forall a : C, up a -> Cabs (g a) <= i0.
Proof. intros a H. pose proof (B [] a ltac:(repeat constructor; intros []) ltac:(intros p [<- |[]]; exact H)) as X. cbn [divided length pow] in X. unfold i0. lra. Qed.
Lemma B2 : forall a b : C, up a -> up b -> a <> b -> Cabs (divided g [b] a) <= i0 ^ 2.
Proof.
  intros a b Ha Hb N. apply (B [b] a); [|intros p [<- |[<- |[]]]; assumption]. constructor; [intros [E|[]]; congruence|repeat constructor; intros []].
Qed.
Lemma B3 : forall a b c : C, up a -> up b -> up c -> a <> b -> a <> c -> b <> c -> Cabs (divided g [b; c] a) <= i0 ^ 3.
Proof.
  intros a b c Ha Hb Hc N1 N2 N3. apply (B [b; c] a); [|intros p [<- |[<- |[<- |[]]]]; assumption].
  constructor; [intros [E|[E|[]]]; congruence|]. constructor; [intros [E|[]]; congruence|repeat constructor; intros []].
Qed.
Lemma B4 : forall a b c d : C, up a -> up b -> up c -> up d -> a <> b -> a <> c -> a <> d -> b <> c -> b <> d -> c <> d -> Cabs (divided g [b; c; d] a) <= i0 ^ 4.
Proof.
  intros a b c d Ha Hb Hc Hd N1 N2 N3 N4 N5 N6. apply (B [b; c; d] a); [|intros p [<- |[<- |[<- |[<- |[]]]]]; assumption].
  constructor; [intros [E|[E|[E|[]]]]; congruence|]. constructor; [intros [E|[E|[]]]; congruence|]. constructor; [intros [E|[]]; congruence|repeat constructor; intros []].
Qed.

(** The quotient at z0 as a function of the other point. *)
Variable z0 : C.
Hypothesis Hz : up z0.

Lemma quotient_lip : forall z z' : C, up z -> up z' -> z <> z0 -> z' <> z0 -> Cabs (Csub (divided g [z0] z) (divided g [z0] z')) <= i0 ^ 3 * Cabs (Csub z z').
Proof.
  intros z z' H H' N N'. destruct (dec_C z z') as [-> |D].
  - replace (Csub _ _) with C0 by ring. rewrite Cabs_C0. apply Rmult_le_pos; [left; apply pow_lt, i0_pos|apply Cabs_ge0].
  - rewrite (divided_cons [z0] z z' D), Cabs_mul, Rmult_comm. apply Rmult_le_compat_r; [apply Cabs_ge0|]. apply B3; assumption.
Qed.

Definition above (t : R) : C := Cadd z0 (0, t).
Lemma above_nz : forall t, 0 < t -> above t <> z0.
Proof. intros t Ht E. apply (f_equal snd) in E. unfold above, Cadd in E. unfold Im in E. cbn in E. lra. Qed.
Lemma above_up : forall t, 0 < t -> up (above t).
Proof. intros t Ht. unfold above, Cadd, Im. cbn [fst snd]. lra. Qed.
Lemma above_abs : forall s t, Cabs (Csub (above s) (above t)) = Rabs (s - t).
Proof.
  intros s t. replace (Csub (above s) (above t)) with (Cmul Ci (RtoC (s - t))) by (unfold above; apply Ceq; unfold Csub, Cadd, Cmul, Ci, RtoC, Re, Im; cbn [fst snd]; ring).
  rewrite Cabs_mul, Cabs_RtoC. unfold Ci. rewrite Cabs_iy by lra. lra.
Qed.
Lemma above_near : forall t, Cabs (Csub (above t) z0) = Rabs t.
Proof.
  intros t. assert (E : z0 = above 0) by (unfold above; apply Ceq; unfold Cadd, Re, Im; cbn [fst snd]; ring).
  transitivity (Cabs (Csub (above t) (above 0))); [rewrite <- E; reflexivity|]. rewrite above_abs. f_equal. lra.
Qed.

(** The derivative. *)
Let M := i0 ^ 3.
Lemma M_pos : 0 < M.
Proof. apply pow_lt, i0_pos. Qed.
Let seq_at (n : nat) : C := divided g [z0] (above (/ INR (S n))).
Lemma seq_pos : forall n, 0 < / INR (S n).
Proof. intros n. apply Rinv_0_lt_compat, lt_0_INR. lia. Qed.
Lemma seq_small : forall e, 0 < e -> exists n0, forall n, (n0 <= n)%nat -> / INR (S n) < e.
Proof.
  intros e He. destruct (archimed_cor1 e He) as [N [HN N0]]. exists N. intros n Hn. apply Rle_lt_trans with (/ INR N); [|exact HN].
  apply Rinv_le_contravar; [apply lt_0_INR; exact N0|apply le_INR; lia].
Qed.
Lemma seq_cauchy : forall part : C -> R, (forall z, Rabs (part z) <= Cabs z) -> (forall u v, part (Csub u v) = part u - part v) -> Cauchy_crit (fun n => part (seq_at n)).
Proof.
  intros part Hp Hs e He. pose proof M_pos as MP. destruct (seq_small (e / (2 * M)) ltac:(apply Rdiv_lt_0_compat; lra)) as [n0 H0]. exists n0. intros n m Hn Hm. unfold R_dist.
  rewrite <- Hs. eapply Rle_lt_trans; [apply Hp|]. unfold seq_at. pose proof (seq_pos n) as Pn. pose proof (seq_pos m) as Pm. pose proof (H0 n Hn) as Sn. pose proof (H0 m Hm) as Sm.
  eapply Rle_lt_trans; [apply quotient_lip; try (apply above_up; assumption); apply above_nz; assumption|].
  rewrite above_abs. fold M. set (a := / INR (S n)) in *. set (b := / INR (S m)) in *.
  assert (Rabs (a - b) < e / (2 * M) + e / (2 * M)) by (apply Rabs_def1; lra). apply Rlt_le_trans with (M * (e / (2 * M) + e / (2 * M))); [apply Rmult_lt_compat_l; assumption|]. right. field. lra.
Qed.

Lemma derivative_ex : exists d : C, forall z : C, up z -> z <> z0 -> Cabs (Csub (divided g [z0] z) d) <= M * Cabs (Csub z z0).
Proof.
  destruct (R_complete _ (seq_cauchy Re Re_abs_le (fun u v => eq_refl))) as [x Hx]. destruct (R_complete _ (seq_cauchy Im Im_abs_le (fun u v => eq_refl))) as [y Hy'].
  exists (x, y). intros z Uz Nz. apply le_any. intros e He. pose proof M_pos as MP.
  destruct (Hx (e / 4) ltac:(lra)) as [n1 H1]. destruct (Hy' (e / 4) ltac:(lra)) as [n2 H2]. destruct (seq_small (e / (2 * M)) ltac:(apply Rdiv_lt_0_compat; lra)) as [n3 H3].
  set (n := (n1 + n2 + n3)%nat). specialize (H1 n ltac:(lia)). specialize (H2 n ltac:(lia)). specialize (H3 n ltac:(lia)). unfold R_dist in *. pose proof (seq_pos n) as Pn.
  assert (D1 : Cabs (Csub (seq_at n) (x, y)) <= e / 2). { eapply Rle_trans; [apply abs_parts|]. change (Re (Csub (seq_at n) (x, y))) with (Re (seq_at n) - x). change (Im (Csub (seq_at n) (x, y))) with (Im (seq_at n) - y). lra. }
  pose proof (quotient_lip z (above (/ INR (S n))) Uz (above_up _ Pn) Nz (above_nz _ Pn)) as D2. fold (seq_at n) in D2. fold M in D2.
  pose proof (abs_tri z z0 (above (/ INR (S n)))) as D3. rewrite (abs_sym z0), above_near, (Rabs_pos_eq (/ INR (S n))) in D3 by lra.
  pose proof (abs_tri (divided g [z0] z) (seq_at n) (x, y)) as D4.
  assert (M * Cabs (Csub z (above (/ INR (S n)))) <= M * (Cabs (Csub z z0) + e / (2 * M))) by (apply Rmult_le_compat_l; lra).
  replace (M * (Cabs (Csub z z0) + e / (2 * M))) with (M * Cabs (Csub z z0) + e / 2) in * by (field; lra). lra.
Qed.

Variable d : C.
Hypothesis Hd : forall z : C, up z -> z <> z0 -> Cabs (Csub (divided g [z0] z) d) <= M * Cabs (Csub z z0).

(** The quotient everywhere. *)
Definition quot (z : C) : C := if dec_C z z0 then d else divided g [z0] z.
Lemma quot_mul : forall z, Cmul (Csub z z0) (quot z) = Csub (g z) (g z0).
Proof.
  intros z. unfold quot. destruct (dec_C z z0) as [-> |N]; [ring|]. symmetry. exact (divided_cons [] z z0 N).
Qed.
Lemma quot_near : forall (z : C) t, up z -> 0 < t -> z <> above t -> Cabs (Csub (quot z) (divided g [above t] z)) <= M * t.
Proof.
  intros z t Uz Ht N. pose proof (above_up t Ht) as Ua. pose proof (above_nz t Ht) as Na. unfold quot. destruct (dec_C z z0) as [-> |Nz].
  - rewrite (divided_sym z0 (above t) N), abs_sym. eapply Rle_trans; [apply Hd; assumption|]. rewrite above_near, Rabs_pos_eq; lra.
  - rewrite (divided_sym z z0 Nz), (divided_sym z (above t) N), (divided_cons [z] z0 (above t)), Cabs_mul by auto.
    rewrite abs_sym, above_near, Rabs_pos_eq, Rmult_comm by lra. apply Rmult_le_compat_r; [lra|]. apply B3; auto.
Qed.

(** Some point above z0 is none of these. *)
Lemma avoid : forall (l : list C) e, 0 < e -> exists t, 0 < t < e /\ forall p, In p l -> p <> above t.
Proof.
  intros l. induction l as [|p l IH]; intros e He; [exists (e / 2); split; [lra|intros p []]|].
  assert (X : exists e', 0 < e' <= e /\ forall t, 0 < t < e' -> p <> above t).
  { set (s := snd p - snd z0). destruct (Rlt_le_dec 0 s) as [S|S].
    - exists (Rmin e s). split; [split; [apply Rmin_glb_lt; assumption|apply Rmin_l]|]. intros t [T1 T2] E. pose proof (Rmin_r e s). apply (f_equal snd) in E. unfold above, Cadd, Im in E. cbn [fst snd] in E. unfold s in *. lra.
    - exists e. split; [lra|]. intros t [T1 T2] E. apply (f_equal snd) in E. unfold above, Cadd, Im in E. cbn [fst snd] in E. unfold s in *. lra. }
  destruct X as [e' [[E1 E2] X]]. destruct (IH e' E1) as [t [[T1 T2] H]]. exists t. split; [lra|]. intros q [<- |I]; [apply X; lra|exact (H q I)].
Qed.

Lemma quot_bound : forall z : C, up z -> Cabs (quot z) <= i0 ^ 2.
Proof.
  intros z Uz. apply le_any. intros e He. pose proof M_pos as MP. destruct (avoid [z] (e / M) ltac:(apply Rdiv_lt_0_compat; lra)) as [t [[T1 T2] N]]. specialize (N z (or_introl eq_refl)).
  pose proof (quot_near z t Uz T1 N) as A. pose proof (B2 z (above t) Uz (above_up t T1) N) as A'.
  pose proof (abs_tri (quot z) (divided g [above t] z) C0) as T. replace (Csub (quot z) C0) with (quot z) in T by ring. replace (Csub (divided g [above t] z) C0) with (divided g [above t] z) in T by ring.
  assert (M * t <= e). { apply (Rmult_lt_compat_l M) in T2; [|exact MP]. replace (M * (e / M)) with e in T2 by (field; lra). lra. } lra.
Qed.
Lemma quot_lip : forall z z' : C, up z -> up z' -> Cabs (Csub (quot z) (quot z')) <= M * Cabs (Csub z z').
Proof.
  intros z z' U U'. unfold quot. pose proof M_pos as MP. destruct (dec_C z z0) as [-> |N], (dec_C z' z0) as [-> |N'].
  - replace (Csub d d) with C0 by ring. rewrite Cabs_C0. apply Rmult_le_pos; [lra|apply Cabs_ge0].
  - rewrite abs_sym, (abs_sym z0). apply Hd; assumption.
  - apply Hd; assumption.
  - apply quotient_lip; assumption.
Qed.

Lemma quot_cell : forall x y h, y0 <= y -> 0 < h ->
  Cabs (Csub (Cmul Ci (Csub (quot (x + h, y)) (quot (x, y)))) (Csub (quot (x, y + h)) (quot (x, y)))) <= 2 * i0 ^ 4 * (h * h).
Proof.
  intros x y h Uy Hh. set (z := (x, y) : C). set (z1 := (x + h, y) : C). set (z2 := (x, y + h) : C).
  assert (U : up z) by exact Uy. assert (U1 : up z1) by exact Uy. assert (U2 : up z2) by (cbn; lra).
  apply le_any. intros e He. pose proof M_pos as MP. destruct (avoid [z; z1; z2] (e / (4 * M)) ltac:(apply Rdiv_lt_0_compat; lra)) as [t [[T1 T2] N]].
  assert (N0 := N z (or_introl eq_refl)). assert (N1 := N z1 (or_intror (or_introl eq_refl))). assert (N2 := N z2 (or_intror (or_intror (or_introl eq_refl)))).
  set (a := above t) in *. assert (Ua : up a) by (apply above_up; exact T1).
  assert (D1 : z1 <> z) by (intros E; injection E; lra). assert (D2 : z2 <> z) by (intros E; injection E; lra). assert (D3 : z1 <> z2) by (intros E; injection E; lra).
  pose proof (quot_near z t U T1 N0) as Q0. pose proof (quot_near z1 t U1 T1 N1) as Q1. pose proof (quot_near z2 t U2 T1 N2) as Q2. fold a in Q0, Q1, Q2.
  assert (X : Cabs (Csub (Cmul Ci (Csub (divided g [a] z1) (divided g [a] z))) (Csub (divided g [a] z2) (divided g [a] z))) <= 2 * i0 ^ 4 * (h * h)).
  { rewrite (divided_cons [a] z1 z D1), (divided_cons [a] z2 z D2).
    replace (Csub z1 z) with (RtoC h) by (apply Ceq; unfold z1, z, Csub, RtoC, Re, Im; cbn [fst snd]; ring).
    replace (Csub z2 z) with (Cmul Ci (RtoC h)) by (apply Ceq; unfold z2, z, Csub, Cmul, Ci, RtoC, Re, Im; cbn [fst snd]; ring).
    replace (Csub (Cmul Ci (Cmul (RtoC h) (divided g [z; a] z1))) (Cmul (Cmul Ci (RtoC h)) (divided g [z; a] z2))) with (Cmul (Cmul Ci (RtoC h)) (Csub (divided g [z; a] z1) (divided g [z; a] z2))) by ring.
    rewrite (divided_cons [z; a] z1 z2 D3), !Cabs_mul, Cabs_RtoC, (Rabs_pos_eq h) by lra. unfold Ci at 1. rewrite Cabs_iy by lra.
    pose proof (B4 z1 z2 z a U1 U2 U Ua D3 D1 N1 D2 N2 N0) as X.
    assert (Y : Cabs (Csub z1 z2) <= 2 * h). { eapply Rle_trans; [apply abs_parts|]. unfold z1, z2, Csub, Re, Im; cbn [fst snd]. replace (x + h - x) with h by ring. replace (y - (y + h)) with (- h) by ring. rewrite Rabs_Ropp, Rabs_pos_eq; lra. }
    pose proof (Cabs_ge0 (divided g [z2; z; a] z1)). pose proof (Cabs_ge0 (Csub z1 z2)).
    assert (Cabs (Csub z1 z2) * Cabs (divided g [z2; z; a] z1) <= 2 * h * i0 ^ 4) by (apply Rmult_le_compat; assumption).
    replace (2 * i0 ^ 4 * (h * h)) with (1 * h * (2 * h * i0 ^ 4)) by ring. apply Rmult_le_compat_l; lra. }
  match type of X with Cabs ?u <= _ => set (V := u) in * end.
  set (e0 := Csub (quot z) (divided g [a] z)) in *. set (e1 := Csub (quot z1) (divided g [a] z1)) in *. set (e2 := Csub (quot z2) (divided g [a] z2)) in *.
  replace (Csub (Cmul Ci (Csub (quot z1) (quot z))) (Csub (quot z2) (quot z))) with (Cadd V (Csub (Cmul Ci (Csub e1 e0)) (Csub e2 e0))) by (unfold V, e0, e1, e2; ring).
  pose proof (Cabs_triangle V (Csub (Cmul Ci (Csub e1 e0)) (Csub e2 e0))) as T. pose proof (Cabs_sub (Cmul Ci (Csub e1 e0)) (Csub e2 e0)) as T'. rewrite Cabs_mul in T'. unfold Ci at 2 in T'. rewrite Cabs_iy in T' by lra.
  pose proof (Cabs_sub e1 e0). pose proof (Cabs_sub e2 e0).
  assert (4 * (M * t) <= e). { apply (Rmult_lt_compat_l (4 * M)) in T2; [|lra]. replace (4 * M * (e / (4 * M))) with e in T2 by (field; lra). lra. } lra.
Qed.
End Analytic.

Section Poisson.
Variable g : C -> C.
Variables eta delta w : R.
Hypothesis He : 0 < eta.
Hypothesis Hd : 0 < delta.
Hypothesis B : forall (l : list C) (a : C), NoDup (a :: l) -> (forall p, In p (a :: l) -> eta <= snd p) -> Cabs (divided g l a) <= (/ eta) ^ S (length l).
Let z0 : C := (w, eta + delta).
Let zs : C := (w, eta - delta).
Let i0 := / eta.

Lemma Hz0 : eta <= snd z0.
Proof. unfold z0. cbn [snd]. lra. Qed.

Variable d : C.
Hypothesis Der : forall z : C, eta <= snd z -> z <> z0 -> Cabs (Csub (divided g [z0] z) d) <= (/ eta) ^ 3 * Cabs (Csub z z0).

Let u (x y : R) : C := quot g z0 d (x, y).
Let v (x y : R) : C := inv_at (x - w) (y - eta + delta).
Let f (x y : R) : C := Cmul (u x y) (v x y).

Lemma i0p : 0 < i0.
Proof. apply Rinv_0_lt_compat. exact He. Qed.

Definition Qf : R := i0 ^ 2 * (2 / (delta * delta * delta)) + 2 * i0 ^ 4 * (/ delta) + i0 ^ 3 * (2 * (/ delta * / delta)).
Definition Kf : R := (1 + Cabs zs / delta) * (2 * i0 + Cabs z0 * i0 ^ 2).

Lemma u_bound : forall x y, eta <= y -> Cabs (u x y) <= i0 ^ 2.
Proof. intros x y H. apply (quot_bound g eta He B z0 Hz0 d Der (x, y)). exact H. Qed.
Lemma v_bound : forall x y, eta <= y -> Cabs (v x y) <= / delta.
Proof. intros x y H. unfold v. apply inv_abs; lra. Qed.

Lemma f_cell : forall x y h, eta <= y -> 0 < h ->
  Cabs (Csub (Cmul Ci (Csub (f (x + h) y) (f x y))) (Csub (f x (y + h)) (f x y))) <= Qf * (h * h).
Proof.
  intros x y h Uy Hh. unfold f.
  pose proof (quot_cell g eta He B z0 Hz0 d Der x y h Uy Hh) as CU. fold (u (x + h) y) in CU. fold (u x y) in CU. fold (u x (y + h)) in CU. fold i0 in CU.
  pose proof (inv_cell delta Hd (x - w) (y - eta + delta) h ltac:(lra) Hh) as CV.
  replace (x - w + h) with (x + h - w) in CV by ring. replace (y - eta + delta + h) with (y + h - eta + delta) in CV by ring.
  fold (v (x + h) y) in CV. fold (v x y) in CV. fold (v x (y + h)) in CV.
  pose proof (quot_lip g eta He B z0 Hz0 d Der (x, y + h) (x, y) ltac:(cbn; lra) Uy) as LU. fold (u x (y + h)) in LU. fold (u x y) in LU. fold i0 in LU.
  replace (Csub (x, y + h) (x, y)) with (Cmul Ci (RtoC h)) in LU by (apply Ceq; unfold Csub, Cmul, Ci, RtoC, Re, Im; cbn [fst snd]; ring).
  rewrite Cabs_mul, Cabs_RtoC, (Rabs_pos_eq h) in LU by lra. unfold Ci at 1 in LU. rewrite Cabs_iy in LU by lra.
  assert (LV : Cabs (Csub (v (x + h) y) (v x (y + h))) <= 2 * (/ delta * / delta) * h).
  { pose proof (v_bound (x + h) y Uy) as X1. pose proof (v_bound x (y + h) ltac:(lra)) as X2. unfold v, inv_at in *.
    set (a := (x - w, y + h - eta + delta) : C) in *. set (b := (x + h - w, y - eta + delta) : C) in *.
    rewrite (Cinv_diff a b), !Cabs_mul by (apply z_nonzero; lra).
    assert (Y : Cabs (Csub a b) <= 2 * h). { eapply Rle_trans; [apply abs_parts|]. unfold a, b, Csub, Re, Im; cbn [fst snd]. replace (x - w - (x + h - w)) with (- h) by ring. replace (y + h - eta + delta - (y - eta + delta)) with h by ring. rewrite Rabs_Ropp, Rabs_pos_eq; lra. }
    replace (2 * (/ delta * / delta) * h) with (2 * h * (/ delta * / delta)) by ring. apply Rmult_le_compat; [apply Cabs_ge0|apply Rmult_le_pos; apply Cabs_ge0|exact Y|].
    apply Rmult_le_compat; try apply Cabs_ge0; assumption. }
  pose proof (u_bound x y Uy) as BU. pose proof (v_bound (x + h) y Uy) as BV. pose proof i0p as IP.
  set (cu := Csub (Cmul Ci (Csub (u (x + h) y) (u x y))) (Csub (u x (y + h)) (u x y))) in *.
  set (cv := Csub (Cmul Ci (Csub (v (x + h) y) (v x y))) (Csub (v x (y + h)) (v x y))) in *.
  set (du := Csub (u x (y + h)) (u x y)) in *. set (dv := Csub (v (x + h) y) (v x (y + h))) in *.
  replace (Csub _ _) with (Cadd (Cadd (Cmul (u x y) cv) (Cmul cu (v (x + h) y))) (Cmul du dv)) by (unfold cu, cv, du, dv; ring).
  eapply Rle_trans; [apply Cabs_triangle|]. pose proof (Cabs_triangle (Cmul (u x y) cv) (Cmul cu (v (x + h) y))) as T. rewrite !Cabs_mul in *.
  assert (P1 : Cabs (u x y) * Cabs cv <= i0 ^ 2 * (2 / (delta * delta * delta) * (h * h))) by (apply Rmult_le_compat; try apply Cabs_ge0; assumption).
  assert (P2 : Cabs cu * Cabs (v (x + h) y) <= 2 * i0 ^ 4 * (h * h) * / delta) by (apply Rmult_le_compat; try apply Cabs_ge0; assumption).
  assert (P3 : Cabs du * Cabs dv <= i0 ^ 3 * (1 * h) * (2 * (/ delta * / delta) * h)) by (apply Rmult_le_compat; try apply Cabs_ge0; assumption).
  unfold Qf. lra.
Qed.

Lemma f_decay : forall x y, eta <= y -> Cabs (f x y) * (x * x + y * y) <= Kf.
Proof.
  intros x y Uy. pose proof i0p as IP. unfold f. rewrite Cabs_mul, <- z_sq. set (z := (x, y) : C).
  assert (S : Cabs (v x y) * Cabs z <= 1 + Cabs zs / delta).
  { unfold v, inv_at. set (t := (x - w, y - eta + delta) : C). assert (Nt : t <> C0) by (apply z_nonzero; lra). rewrite Cabs_Cinv by exact Nt.
    pose proof (z_abs (x - w) (y - eta + delta) ltac:(lra)) as Lt. fold t in Lt. pose proof (Cabs_ge0 zs) as Z.
    assert (T : Cabs z <= Cabs t + Cabs zs). { replace z with (Cadd t zs) by (apply Ceq; unfold z, t, zs, Cadd, Re, Im; cbn [fst snd]; ring). apply Cabs_triangle. }
    apply (Rmult_le_reg_l (Cabs t)); [lra|]. rewrite <- Rmult_assoc, Rinv_r, Rmult_1_l by lra. eapply Rle_trans; [exact T|].
    assert (Cabs zs <= Cabs t * (Cabs zs / delta)); [|lra]. apply (Rmult_le_reg_r delta); [exact Hd|]. replace (Cabs t * (Cabs zs / delta) * delta) with (Cabs zs * Cabs t) by (field; lra). apply Rmult_le_compat_l; lra. }
  assert (U : Cabs (u x y) * Cabs z <= 2 * i0 + Cabs z0 * i0 ^ 2).
  { pose proof (u_bound x y Uy) as BU. pose proof (Cabs_ge0 (u x y)). pose proof (Cabs_ge0 z0).
    assert (T : Cabs z <= Cabs (Csub z z0) + Cabs z0). { replace z with (Cadd (Csub z z0) z0) at 1 by ring. apply Cabs_triangle. }
    assert (E : Cabs (Csub z z0) * Cabs (u x y) <= 2 * i0).
    { rewrite <- Cabs_mul. unfold u. fold z. rewrite (quot_mul g z0 d). pose proof (Cabs_sub (g z) (g z0)). assert (X1 : Cabs (g z) <= i0) by exact (B1 g eta B z Uy). assert (X2 : Cabs (g z0) <= i0) by exact (B1 g eta B z0 Hz0). lra. }
    assert (Cabs (u x y) * Cabs z <= Cabs (u x y) * (Cabs (Csub z z0) + Cabs z0)) by (apply Rmult_le_compat_l; assumption).
    assert (Cabs z0 * Cabs (u x y) <= Cabs z0 * i0 ^ 2) by (apply Rmult_le_compat_l; assumption). lra. }
  replace (Cabs (u x y) * Cabs (v x y) * (Cabs z * Cabs z)) with (Cabs (v x y) * Cabs z * (Cabs (u x y) * Cabs z)) by ring. unfold Kf.
  apply Rmult_le_compat; try assumption; apply Rmult_le_pos; apply Cabs_ge0.
Qed.

(** On the line. *)
Let L (x : R) : R := lorentzian delta (w - x).
Lemma L_inv : forall x, L x = / PI * (- Im (inv_at (x - w) delta)).
Proof. intros x. unfold L, lorentzian. rewrite inv_im. pose proof PI_RGT_0. pose proof (Rle_0_sqr (w - x)) as S. unfold Rsqr in S. field. repeat split; try lra; apply Rgt_not_eq; nra. Qed.
Lemma f_line : forall x, f x eta = Cmul (RtoC (PI / delta * L x)) (Csub (g (x, eta)) (g z0)).
Proof.
  intros x. unfold f. rewrite <- (quot_mul g z0 d (x, eta)). fold (u x eta). unfold v. replace (eta - eta + delta) with delta by ring.
  replace (inv_at (x - w) delta) with (Cmul (RtoC (PI / delta * L x)) (Csub (x, eta) z0)); [ring|].
  pose proof PI_RGT_0. pose proof (Rle_0_sqr (w - x)) as S. unfold Rsqr in S.
  unfold inv_at, Cinv, L, lorentzian, z0. apply Ceq; unfold Cmul, Csub, RtoC, Cnorm2, Re, Im; cbn [fst snd]; field; repeat split; try lra; apply Rgt_not_eq; nra.
Qed.

Variable c : C.
Let a (x : R) : R := Re (Cmul c (g (x, eta))).
Let a0 : R := Re (Cmul c (g z0)).
Let q := Cabs c.
Lemma q_nonneg : 0 <= q.
Proof. apply Cabs_ge0. Qed.
Lemma csum_re : forall s n, Re (csum s n) = rsum (fun j => Re (s j)) n.
Proof. induction n as [|n IH]; cbn [csum rsum]; [reflexivity|]. rewrite <- IH. reflexivity. Qed.

Lemma a_bound : forall x, Rabs (a x) <= q * i0.
Proof. intros x. unfold a. eapply Rle_trans; [apply Re_abs_le|]. rewrite Cabs_mul. apply Rmult_le_compat_l; [apply q_nonneg|]. apply (B1 g eta B (x, eta)). cbn. lra. Qed.
Lemma a0_bound : Rabs a0 <= q * i0.
Proof. unfold a0. eapply Rle_trans; [apply Re_abs_le|]. rewrite Cabs_mul. apply Rmult_le_compat_l; [apply q_nonneg|]. apply (B1 g eta B z0 Hz0). Qed.
Lemma a_lip : lipschitz a (q * i0 ^ 2).
Proof.
  intros x x'. unfold a. replace (Re (Cmul c (g (x', eta))) - Re (Cmul c (g (x, eta)))) with (Re (Cmul c (Csub (g (x', eta)) (g (x, eta))))) by (unfold Cmul, Csub, Re, Im; cbn [fst snd]; ring).
  eapply Rle_trans; [apply Re_abs_le|]. rewrite Cabs_mul, Rmult_assoc. apply Rmult_le_compat_l; [apply q_nonneg|].
  destruct (Req_EM_T x' x) as [-> |N]; [replace (Csub _ _) with C0 by ring; rewrite Cabs_C0; apply Rmult_le_pos; [left; apply pow_lt, i0p|apply Rabs_pos]|].
  assert (N' : ((x', eta) : C) <> (x, eta)) by (intros E; injection E; auto). rewrite (divided_cons g [] (x', eta) (x, eta) N' : Csub (g (x', eta)) (g (x, eta)) = _).
  replace (Csub (x', eta) (x, eta)) with (RtoC (x' - x)) by (apply Ceq; unfold Csub, RtoC, Re, Im; cbn [fst snd]; ring). rewrite Cabs_mul, Cabs_RtoC, Rmult_comm. apply Rmult_le_compat_r; [apply Rabs_pos|].
  apply (B2 g eta B); [cbn; lra|cbn; lra|exact N'].
Qed.
Let lL := / (PI * (delta * delta)).
Lemma lL_pos : 0 < lL.
Proof. apply Rinv_0_lt_compat. pose proof PI_RGT_0. apply Rmult_lt_0_compat; [lra|nra]. Qed.
Lemma L_lip : lipschitz L lL.
Proof.
  intros x x'. rewrite !L_inv. pose proof PI_RGT_0 as P. pose proof (inv_lip delta Hd (x - w) (x' - w)) as I. replace (x' - w - (x - w)) with (x' - x) in I by ring.
  replace (/ PI * - Im (inv_at (x' - w) delta) - / PI * - Im (inv_at (x - w) delta)) with (/ PI * - (Im (inv_at (x' - w) delta) - Im (inv_at (x - w) delta))) by ring.
  rewrite Rabs_mult, Rabs_Ropp, (Rabs_pos_eq (/ PI)) by (left; apply Rinv_0_lt_compat; exact P). unfold lL. rewrite Rinv_mult, Rmult_assoc.
  apply Rmult_le_compat_l; [left; apply Rinv_0_lt_compat; exact P|exact I].
Qed.
Lemma L_bound : forall x, Rabs (L x) <= / (PI * delta).
Proof.
  intros x. rewrite L_inv. pose proof PI_RGT_0 as P. rewrite Rabs_mult, Rabs_Ropp, (Rabs_pos_eq (/ PI)), Rinv_mult by (left; apply Rinv_0_lt_compat; exact P).
  apply Rmult_le_compat_l; [left; apply Rinv_0_lt_compat; exact P|]. eapply Rle_trans; [apply Im_abs_le|]. apply inv_abs; lra.
Qed.
Let la := q * i0 * lL + / (PI * delta) * (q * i0 ^ 2).
Lemma la_pos : 0 <= la.
Proof.
  pose proof i0p. pose proof lL_pos. pose proof q_nonneg. pose proof PI_RGT_0. assert (0 < / (PI * delta)) by (apply Rinv_0_lt_compat; nra).
  assert (0 < i0 ^ 2) by (apply pow_lt; assumption). unfold la. apply Rplus_le_le_0_compat; repeat apply Rmult_le_pos; lra.
Qed.
Lemma aL_lip : lipschitz (fun x => a x * L x) la.
Proof.
  intros x x'. replace (a x' * L x' - a x * L x) with (a x' * (L x' - L x) + L x * (a x' - a x)) by ring. eapply Rle_trans; [apply Rabs_triang|]. rewrite !Rabs_mult.
  pose proof (a_bound x'). pose proof (L_bound x). pose proof (L_lip x x'). pose proof (a_lip x x'). unfold la. rewrite Rmult_plus_distr_r.
  apply Rplus_le_compat; rewrite Rmult_assoc; apply Rmult_le_compat; try apply Rabs_pos; assumption.
Qed.
Theorem aL_int : forall x y, Riemann_integrable (fun x => a x * L x) x y.
Proof. exact (lip_int _ la la_pos aL_lip). Qed.

Lemma L_antider : forall x, derivable_pt_lim (fun x => / PI * atan ((x - w) / delta)) x (L x).
Proof.
  intros x. rewrite L_inv. apply (derivable_pt_lim_scal (fun x => atan ((x - w) / delta)) (/ PI) x).
  pose proof (derivable_pt_lim_comp (fun x => x - w) (fun y => atan (y / delta)) x 1 (- Im (inv_at (x - w) delta))) as X.
  rewrite Rmult_1_r in X. apply X; [|exact (lorentz_antider delta Hd (x - w))].
  replace 1 with (1 - 0) by ring. apply derivable_pt_lim_minus; [apply derivable_pt_lim_id|apply derivable_pt_lim_const].
Qed.

Definition weight_in (r : R) : R := (atan ((r - w) / delta) + atan ((r + w) / delta)) / PI.
Definition Kc : R := q * (delta / PI) * (9 * Kf / 2).

Theorem poisson : forall r (pr : Riemann_integrable (fun x => a x * L x) (- r) r), 0 < r -> Rabs (RiemannInt pr - a0 * weight_in r) <= Kc / r.
Proof.
  intros r pr Hr. pose proof PI_RGT_0 as PP. pose proof i0p as IP. pose proof q_nonneg as Q0. pose proof lL_pos as LP. pose proof la_pos as AP.
  assert (Qp : 0 <= Qf). { pose proof (f_cell 0 eta 1 ltac:(lra) ltac:(lra)) as X. pose proof (Cabs_ge0 (Csub (Cmul Ci (Csub (f (0 + 1) eta) (f 0 eta))) (Csub (f 0 (eta + 1)) (f 0 eta)))). lra. }
  set (s := q * (delta / PI)). assert (s0 : 0 <= s) by (apply Rmult_le_pos; [exact Q0|left; apply Rdiv_lt_0_compat; lra]).
  set (b := (s * (Qf * (4 * (r * r))) + q * i0 * (2 * r * lL) + 2 * r * la) * (2 * r)).
  assert (b0 : 0 <= b). { unfold b. apply Rmult_le_pos; [|lra]. assert (0 <= r * r) by nra.
    assert (0 <= s * (Qf * (4 * (r * r)))) by (apply Rmult_le_pos; [exact s0|apply Rmult_le_pos; lra]).
    assert (0 <= q * i0 * (2 * r * lL)) by (apply Rmult_le_pos; [apply Rmult_le_pos; lra|apply Rmult_le_pos; lra]).
    assert (0 <= 2 * r * la) by (apply Rmult_le_pos; lra). lra. }
  apply (le_limit _ _ b b0). intros n Hn. assert (Hn' : 0 < INR n) by (apply lt_0_INR; exact Hn).
  pose proof (square f eta Qf Kf He f_cell f_decay r n Hr Hn) as S. cbv zeta in S. set (h := 2 * r / INR n) in *.
  assert (Hh : 0 < h) by (unfold h; apply Rdiv_lt_0_compat; lra). assert (Hnh : INR n * h = 2 * r) by (unfold h; field; lra).
  set (X := fun j : nat => - r + INR j * h).
  (* the sum of the integrand *)
  assert (T1 : Rabs (RiemannInt pr - h * rsum (fun j => a (X j) * L (X j)) n) <= INR n * (la * (h * h))).
  { assert (Y : forall e (pe : Riemann_integrable (fun x => a x * L x) (- r) e), e = - r + INR n * h -> Rabs (RiemannInt pe - h * rsum (fun j => a (X j) * L (X j)) n) <= INR n * (la * (h * h)))
      by (intros e pe ->; exact (riemann_sum (fun x => a x * L x) la AP aL_lip (- r) h n pe Hh)).
    apply Y. lra. }
  (* the sum of the Lorentzian *)
  pose proof (antiderivative_sum (fun x => / PI * atan ((x - w) / delta)) L lL ltac:(lra) L_lip L_antider (- r) h n Hh) as T2. cbv beta in T2. replace (- r + INR n * h) with r in T2 by lra.
  replace (- r - w) with (- (r + w)) in T2 by ring. replace (- (r + w) / delta) with (- ((r + w) / delta)) in T2 by (field; lra). rewrite atan_opp in T2.
  replace (/ PI * atan ((r - w) / delta) - / PI * - atan ((r + w) / delta)) with (weight_in r) in T2 by (unfold weight_in; field; lra).
  change (fun j => L (- r + INR j * h)) with (fun j => L (X j)) in T2.
  (* the sum of the differences *)
  assert (T3 : Rabs (h * rsum (fun j => (a (X j) - a0) * L (X j)) n) <= s * (9 * Kf / (2 * r) + Qf * (4 * (r * r)) * h)).
  { assert (E : rsum (fun j => (a (X j) - a0) * L (X j)) n = delta / PI * Re (Cmul c (csum (fun j => f (X j) eta) n))).
    { rewrite <- csum_mul, csum_re, <- rsum_scal. apply rsum_ext. intros j _. rewrite f_line. unfold a, a0, Cmul, Csub, RtoC, Re, Im. cbn [fst snd]. field. lra. }
    rewrite E, Rabs_mult, (Rabs_pos_eq h), Rabs_mult, (Rabs_pos_eq (delta / PI)) by (try lra; left; apply Rdiv_lt_0_compat; lra).
    pose proof (Re_abs_le (Cmul c (csum (fun j => f (X j) eta) n))) as Z. rewrite Cabs_mul in Z. fold q in Z. change (csum (fun j => f (- r + INR j * h) eta) n) with (csum (fun j => f (X j) eta) n) in S. set (cs := Cabs (csum (fun j => f (X j) eta) n)) in *.
    assert (D0 : 0 < delta / PI) by (apply Rdiv_lt_0_compat; lra).
    eapply Rle_trans; [apply Rmult_le_compat_l; [lra|apply Rmult_le_compat_l; [lra|exact Z]]|].
    replace (h * (delta / PI * (q * cs))) with (s * (h * cs)) by (unfold s; ring). apply Rmult_le_compat_l; [exact s0|exact S]. }
  assert (E3 : rsum (fun j => (a (X j) - a0) * L (X j)) n = rsum (fun j => a (X j) * L (X j)) n - a0 * rsum (fun j => L (X j)) n).
  { rewrite <- rsum_scal, <- rsum_sub. apply rsum_ext. intros j _. ring. }
  rewrite E3 in T3. set (sa := rsum (fun j => a (X j) * L (X j)) n) in *. set (sl := rsum (fun j => L (X j)) n) in *. set (W := weight_in r) in *.
  pose proof a0_bound as A0.
  replace (RiemannInt pr - a0 * W) with ((RiemannInt pr - h * sa) + (h * (sa - a0 * sl)) + - (a0 * (W - h * sl))) by ring.
  eapply Rle_trans; [apply Rabs_triang|]. rewrite Rabs_Ropp, Rabs_mult. pose proof (Rabs_triang (RiemannInt pr - h * sa) (h * (sa - a0 * sl))) as T4.
  assert (T5 : Rabs a0 * Rabs (W - h * sl) <= q * i0 * (INR n * (lL * (h * h)))) by (apply Rmult_le_compat; try apply Rabs_pos; assumption).
  replace (Kc / r + b / INR n) with (INR n * (la * (h * h)) + s * (9 * Kf / (2 * r) + Qf * (4 * (r * r)) * h) + q * i0 * (INR n * (lL * (h * h)))); [lra|].
  replace (INR n * (la * (h * h))) with (INR n * h * (la * h)) by ring. replace (INR n * (lL * (h * h))) with (INR n * h * (lL * h)) by ring. rewrite Hnh. unfold Kc, b, s, h. field. repeat split; lra.
Qed.
End Poisson.

(** All but a small part of the weight is inside. *)
Lemma weight_total : forall w delta r, 0 < delta -> Rabs w < r -> Rabs (weight_in delta w r - 1) <= (delta / (r - Rabs w)) * 2.
Proof.
  intros w delta r Hd Hr. pose proof PI_RGT_0 as P. assert (P2 : 2 <= PI) by (pose proof PI2_1; lra). assert (W : - Rabs w <= w <= Rabs w) by (split; [pose proof (Rle_abs (- w)) as X; rewrite Rabs_Ropp in X; lra|apply Rle_abs]).
  destruct (atan_tail ((r - w) / delta) ltac:(apply Rdiv_lt_0_compat; lra)) as [A1 A2]. destruct (atan_tail ((r + w) / delta) ltac:(apply Rdiv_lt_0_compat; lra)) as [A3 A4].
  assert (S1 : / ((r - w) / delta) <= delta / (r - Rabs w)) by (unfold Rdiv; rewrite Rinv_mult, Rinv_inv, Rmult_comm; apply Rmult_le_compat_l; [lra|apply Rinv_le_contravar; lra]).
  assert (S2 : / ((r + w) / delta) <= delta / (r - Rabs w)) by (unfold Rdiv; rewrite Rinv_mult, Rinv_inv, Rmult_comm; apply Rmult_le_compat_l; [lra|apply Rinv_le_contravar; lra]).
  set (t := delta / (r - Rabs w)) in *. assert (t0 : 0 < t) by (apply Rdiv_lt_0_compat; lra).
  unfold weight_in. set (x := atan ((r - w) / delta)) in *. set (y := atan ((r + w) / delta)) in *.
  replace ((x + y) / PI - 1) with (- ((PI - (x + y)) / PI)) by (field; lra). rewrite Rabs_Ropp.
  assert (0 < (PI - (x + y)) / PI <= t * 2); [|rewrite Rabs_pos_eq; lra]. split; [apply Rdiv_lt_0_compat; lra|].
  apply (Rmult_le_reg_r PI); [lra|]. replace ((PI - (x + y)) / PI * PI) with (PI - (x + y)) by (field; lra). nra.
Qed.
