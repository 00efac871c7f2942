(** Interpolation of the Green's function, and when two of them are equal (C87). *)
From Coq Require Import ZArith Reals List Lra Lia Classical.
From Verif Require Import Base Cplx Physics Physics_proofs Cutoff_proofs Walk_proofs Moments_proofs Band_proofs Holo_proofs Spec_blur Divided_proofs Sum_proofs Blur_proofs Spec_interp.
Import ListNotations.
Open Scope R_scope.

(** The remainder of Newton's polynomial. *)
Lemma remainder : forall g l z, ~ In z l -> Csub (g z) (newton g l z) = Cmul (divided g l z) (nodes l z).
Proof.
  intros g l z. induction l as [|b l IH]; intros N; cbn [newton nodes].
  - cbn [divided]. ring.
  - assert (Nb : z <> b) by (intros ->; apply N; left; reflexivity). assert (Nl : ~ In z l) by (intros I; apply N; right; exact I).
    pose proof (divided_cons g l z b Nb) as E. specialize (IH Nl).
    replace (Csub (g z) (Cadd (newton g l z) (Cmul (divided g l b) (nodes l z)))) with (Csub (Csub (g z) (newton g l z)) (Cmul (divided g l b) (nodes l z))) by ring.
    rewrite IH. replace (Csub (Cmul (divided g l z) (nodes l z)) (Cmul (divided g l b) (nodes l z))) with (Cmul (Csub (divided g l z) (divided g l b)) (nodes l z)) by ring.
    rewrite E. set (d := divided g (b :: l) z). ring.
Qed.

Lemma divided_zero : forall f l a, (forall p, In p (a :: l) -> f p = C0) -> divided f l a = C0.
Proof.
  intros f. induction l as [|b l IH]; intros a H; cbn [divided]; [apply H; left; reflexivity|].
  rewrite (IH a), (IH b); [ring| |]; intros p I; apply H; [right; exact I|destruct I as [<- |I]; [left; reflexivity|right; right; exact I]].
Qed.
Lemma newton_zero : forall f l z, (forall p, In p l -> f p = C0) -> newton f l z = C0.
Proof.
  intros f. induction l as [|b l IH]; intros z H; cbn [newton]; [reflexivity|]. rewrite IH by (intros p I; apply H; right; exact I). rewrite divided_zero by exact H. ring.
Qed.
Lemma divided_sub : forall g h l a, divided (fun z => Csub (g z) (h z)) l a = Csub (divided g l a) (divided h l a).
Proof. intros g h. induction l as [|b l IH]; intros a; cbn [divided]; [reflexivity|]. rewrite !IH. ring. Qed.
Lemma nodes_abs : forall l z s, 0 <= s -> (forall b, In b l -> Cabs (Csub z b) <= s) -> Cabs (nodes l z) <= s ^ length l.
Proof.
  induction l as [|b l IH]; intros z s Hs H; cbn [nodes length pow].
  - right. unfold C1. change (1, 0) with (RtoC 1). rewrite Cabs_RtoC, Rabs_pos_eq; lra.
  - rewrite Cabs_mul. apply Rmult_le_compat; try apply Cabs_ge0; [apply H; left; reflexivity|]. apply IH; [exact Hs|]. intros p I. apply H. right. exact I.
Qed.

Section Two.
Variables g h : C -> C.
Definition bounded (g : C -> C) : Prop := forall y (l : list C) (a : C), 0 < y -> NoDup (a :: l) -> (forall p, In p (a :: l) -> y <= Im p) -> Cabs (divided g l a) <= (/ y) ^ S (length l).
Hypothesis Bg : bounded g.
Hypothesis Bh : bounded h.
Let f (z : C) : C := Csub (g z) (h z).

Lemma f_divided : forall y (l : list C) (a : C), 0 < y -> NoDup (a :: l) -> (forall p, In p (a :: l) -> y <= Im p) -> Cabs (divided f l a) <= 2 * (/ y) ^ S (length l).
Proof. intros y l a Hy ND HP. unfold f. rewrite divided_sub. pose proof (Cabs_sub (divided g l a) (divided h l a)). pose proof (Bg y l a Hy ND HP). pose proof (Bh y l a Hy ND HP). lra. Qed.

(** One step downwards. *)
Definition ladder (x y : R) (n : nat) : list C := map (fun j => (x, y + y / (10 * INR (S j))) : C) (seq 0 n).
Lemma ladder_in : forall x y n p, 0 < y -> In p (ladder x y n) -> exists t, 0 < t <= y / 10 /\ p = (x, y + t).
Proof.
  intros x y n p Hy I. apply in_map_iff in I as [j [<- _]]. exists (y / (10 * INR (S j))). assert (1 <= INR (S j)) by (change 1 with (INR 1); apply le_INR; lia). split; [|reflexivity]. split; [apply Rdiv_lt_0_compat; lra|].
  unfold Rdiv. apply Rmult_le_compat_l; [lra|]. apply Rinv_le_contravar; lra.
Qed.
Lemma ladder_nodup : forall x y n, 0 < y -> NoDup (ladder x y n).
Proof.
  intros x y n Hy. apply FinFun.Injective_map_NoDup; [|apply seq_NoDup]. intros i j E. injection E as E.
  assert (P : forall j, 0 < INR (S j)) by (intros; apply lt_0_INR; lia). pose proof (P i). pose proof (P j).
  assert (E' : / (10 * INR (S i)) = / (10 * INR (S j))) by (apply Rplus_eq_reg_l in E; apply (Rmult_eq_reg_l y); [exact E|lra]). apply (f_equal Rinv) in E'. rewrite !Rinv_inv in E'.
  assert (E2 : INR (S i) = INR (S j)) by lra. apply INR_eq in E2. lia.
Qed.

Lemma down : forall y, 0 < y -> (forall z, y <= Im z -> f z = C0) -> forall z, 2 / 3 * y <= Im z -> f z = C0.
Proof.
  intros y Hy H [x v] Hv. cbn [Im snd] in Hv. unfold Im in Hv. cbn [snd] in Hv. destruct (Rle_lt_dec y v) as [L|L]; [apply H; exact L|].
  apply NNPP. intros NZ. pose proof (Cabs_pos _ NZ) as P.
  assert (X : forall n, Cabs (f (x, v)) <= 3 / y * (13 / 20) ^ n).
  { intros n. set (l := ladder x y n). set (z := (x, v) : C).
    assert (In_l : forall p, In p l -> exists t, 0 < t <= y / 10 /\ p = (x, y + t)) by (intros p; apply ladder_in; exact Hy).
    assert (N : ~ In z l) by (intros I; destruct (In_l z I) as [t [Ht E]]; injection E as E; lra).
    pose proof (remainder f l z N) as E. rewrite newton_zero in E by (intros p I; destruct (In_l p I) as [t [Ht ->]]; apply H; unfold Im; cbn [snd]; lra).
    replace (Csub (f z) C0) with (f z) in E by ring. rewrite E, Cabs_mul.
    set (y2 := 2 / 3 * y). assert (Y2 : 0 < y2) by (unfold y2; lra).
    assert (B1' : Cabs (divided f l z) <= 2 * (/ y2) ^ S (length l)).
    { apply f_divided; [exact Y2|constructor; [exact N|apply ladder_nodup; exact Hy]|]. intros p [<- |I]; [exact Hv|]. destruct (In_l p I) as [t [Ht ->]]. unfold Im, y2. cbn [snd]. lra. }
    assert (B2' : Cabs (nodes l z) <= (13 / 30 * y) ^ length l).
    { apply nodes_abs; [lra|]. intros b I. destruct (In_l b I) as [t [Ht ->]]. eapply Rle_trans; [apply abs_parts|]. unfold z, Csub, Re, Im. cbn [fst snd]. replace (x - x) with 0 by ring. rewrite Rabs_R0, Rabs_left by lra. lra. }
    assert (LL : length l = n) by (unfold l, ladder; rewrite map_length, seq_length; reflexivity). rewrite LL in *.
    eapply Rle_trans; [apply Rmult_le_compat; [apply Cabs_ge0|apply Cabs_ge0|exact B1'|exact B2']|]. right. cbn [pow].
    replace (2 * (/ y2 * (/ y2) ^ n) * (13 / 30 * y) ^ n) with (2 * / y2 * ((/ y2) ^ n * (13 / 30 * y) ^ n)) by ring. rewrite <- Rpow_mult_distr.
    replace (/ y2 * (13 / 30 * y)) with (13 / 20) by (unfold y2; field; lra). unfold y2. field. lra. }
  destruct (pow_lt_1_zero (13 / 20) ltac:(rewrite Rabs_pos_eq; lra) (Cabs (f (x, v)) * y / 3) ltac:(apply Rdiv_lt_0_compat; [apply Rmult_lt_0_compat|]; lra)) as [n Hn].
  specialize (Hn n (le_n _)). specialize (X n). assert (0 < (13 / 20) ^ n) by (apply pow_lt; lra). rewrite Rabs_pos_eq in Hn by lra.
  assert (3 / y * (13 / 20) ^ n < 3 / y * (Cabs (f (x, v)) * y / 3)) by (apply Rmult_lt_compat_l; [apply Rdiv_lt_0_compat; lra|exact Hn]).
  replace (3 / y * (Cabs (f (x, v)) * y / 3)) with (Cabs (f (x, v))) in * by (field; lra). lra.
Qed.

Lemma down_all : forall y, 0 < y -> (forall z, y <= Im z -> f z = C0) -> forall z, 0 < Im z -> f z = C0.
Proof.
  intros y Hy H. assert (X : forall n z, (2 / 3) ^ n * y <= Im z -> f z = C0).
  { induction n as [|n IH]; intros z Hz; [apply H; cbn [pow] in Hz; lra|]. apply (down ((2 / 3) ^ n * y)); [apply Rmult_lt_0_compat; [apply pow_lt; lra|exact Hy]|exact IH|]. cbn [pow] in Hz. lra. }
  intros z Hz. destruct (pow_lt_1_zero (2 / 3) ltac:(rewrite Rabs_pos_eq; lra) (Im z / y) ltac:(apply Rdiv_lt_0_compat; lra)) as [n Hn]. specialize (Hn n (le_n _)). apply (X n).
  rewrite Rabs_pos_eq in Hn by (left; apply pow_lt; lra). apply (Rmult_lt_compat_r y) in Hn; [|exact Hy]. replace (Im z / y * y) with (Im z) in Hn by (field; lra). lra.
Qed.

(** A real-valued difference vanishes. *)
Variable y : R.
Hypothesis Hy : 0 < y.
Hypothesis Real : forall z, y <= Im z -> Im (f z) = 0.

Lemma real_step : forall z z' : C, y <= Im z -> y <= Im z' -> Cabs (Csub (f z') (f z)) <= 2 * (/ y) ^ 3 * (Cabs (Csub z' z) * Cabs (Csub z' z)).
Proof.
  intros z z' U U'. destruct (dec_C z' z) as [-> |N].
  { replace (Csub (f z) (f z)) with C0 by ring. replace (Csub z z) with C0 by ring. rewrite Cabs_C0. lra. }
  assert (I3 : 0 < (/ y) ^ 3) by (apply pow_lt, Rinv_0_lt_compat; exact Hy).
  destruct (derivative_ex g y Hy (fun l a ND HP => Bg y l a Hy ND HP) z U) as [dg Hg]. destruct (derivative_ex h y Hy (fun l a ND HP => Bh y l a Hy ND HP) z U) as [dh Hh].
  set (d := Csub dg dh).
  assert (D : forall p : C, y <= Im p -> p <> z -> Cabs (Csub (Csub (f p) (f z)) (Cmul (Csub p z) d)) <= 2 * (/ y) ^ 3 * (Cabs (Csub p z) * Cabs (Csub p z))).
  { intros p Up Np. specialize (Hg p Up Np). specialize (Hh p Up Np). pose proof (divided_cons g [] p z Np) as Eg. pose proof (divided_cons h [] p z Np) as Eh. change (divided g [] p) with (g p) in Eg. change (divided g [] z) with (g z) in Eg. change (divided h [] p) with (h p) in Eh. change (divided h [] z) with (h z) in Eh.
    replace (Csub (Csub (f p) (f z)) (Cmul (Csub p z) d)) with (Cmul (Csub p z) (Csub (Csub (divided g [z] p) dg) (Csub (divided h [z] p) dh))).
    - rewrite Cabs_mul. pose proof (Cabs_sub (Csub (divided g [z] p) dg) (Csub (divided h [z] p) dh)) as T. pose proof (Cabs_ge0 (Csub p z)) as A. set (q := Cabs (Csub p z)) in *. set (t := Cabs (Csub (Csub _ _) (Csub _ _))) in *.
      replace (2 * (/ y) ^ 3 * (q * q)) with (q * (2 * ((/ y) ^ 3 * q))) by ring. apply Rmult_le_compat_l; lra.
    - unfold f, d. replace (Csub (Csub (g p) (h p)) (Csub (g z) (h z))) with (Csub (Csub (g p) (g z)) (Csub (h p) (h z))) by ring. rewrite Eg, Eh. ring. }
  assert (Z : d = C0).
  { assert (Q : forall t, 0 < t -> Rabs (Im d) <= 2 * (/ y) ^ 3 * t /\ Rabs (Re d) <= 2 * (/ y) ^ 3 * t).
    { intros t Ht. split.
      - pose proof (D (Cadd z (RtoC t)) ltac:(unfold Cadd, RtoC, Im in *; cbn [fst snd] in *; lra) ltac:(intros E; apply (f_equal fst) in E; unfold Cadd, RtoC, Re in E; cbn [fst snd] in E; lra)) as X.
        replace (Csub (Cadd z (RtoC t)) z) with (RtoC t) in X by ring. rewrite Cabs_RtoC, (Rabs_pos_eq t) in X by lra. pose proof (Im_abs_le (Csub (Csub (f (Cadd z (RtoC t))) (f z)) (Cmul (RtoC t) d))) as Y.
        replace (Im (Csub (Csub (f (Cadd z (RtoC t))) (f z)) (Cmul (RtoC t) d))) with (Im (f (Cadd z (RtoC t))) - Im (f z) - t * Im d) in Y by (unfold Csub, Cmul, RtoC, Re, Im; cbn [fst snd]; ring).
        rewrite !Real in Y by (unfold Cadd, RtoC, Im in *; cbn [fst snd] in *; lra). replace (0 - 0 - t * Im d) with (- (t * Im d)) in Y by ring. rewrite Rabs_Ropp, Rabs_mult, (Rabs_pos_eq t) in Y by lra.
        apply (Rmult_le_reg_l t); [exact Ht|]. lra.
      - pose proof (D (Cadd z (0, t)) ltac:(unfold Cadd, Im in *; cbn [fst snd] in *; lra) ltac:(intros E; apply (f_equal snd) in E; unfold Cadd, Im in E; cbn [fst snd] in E; lra)) as X.
        replace (Csub (Cadd z (0, t)) z) with ((0, t) : C) in X by (apply Ceq; unfold Csub, Cadd, Re, Im; cbn [fst snd]; ring). rewrite Cabs_iy in X by lra. pose proof (Im_abs_le (Csub (Csub (f (Cadd z (0, t))) (f z)) (Cmul (0, t) d))) as Y.
        replace (Im (Csub (Csub (f (Cadd z (0, t))) (f z)) (Cmul (0, t) d))) with (Im (f (Cadd z (0, t))) - Im (f z) - t * Re d) in Y by (unfold Csub, Cmul, Re, Im; cbn [fst snd]; ring).
        rewrite !Real in Y by (unfold Cadd, Im in *; cbn [fst snd] in *; lra). replace (0 - 0 - t * Re d) with (- (t * Re d)) in Y by ring. rewrite Rabs_Ropp, Rabs_mult, (Rabs_pos_eq t) in Y by lra.
        apply (Rmult_le_reg_l t); [exact Ht|]. lra. }
    set (c := 2 * (/ y) ^ 3) in *. assert (c0 : 0 < c) by (unfold c; lra).
    assert (Z' : forall x, (forall t, 0 < t -> Rabs x <= c * t) -> x = 0).
    { intros x Hx. destruct (Req_dec x 0) as [E|E]; [exact E|]. pose proof (Rabs_pos_lt x E) as Px. specialize (Hx (Rabs x / (2 * c)) ltac:(apply Rdiv_lt_0_compat; lra)). replace (c * (Rabs x / (2 * c))) with (Rabs x / 2) in Hx by (field; lra). lra. }
    apply Ceq; [change (Re C0) with 0|change (Im C0) with 0]; apply Z'; intros t Ht; apply Q; exact Ht. }
  specialize (D z' U' N). rewrite Z in D. replace (Csub (Csub (f z') (f z)) (Cmul (Csub z' z) C0)) with (Csub (f z') (f z)) in D by ring. exact D.
Qed.

(** So it is constant upwards. *)
Lemma constant_up : forall x v v', y <= v -> v <= v' -> f (x, v') = f (x, v).
Proof.
  intros x v v' Hv Hv'. set (c := 2 * (/ y) ^ 3). assert (c0 : 0 < c) by (unfold c; assert (0 < (/ y) ^ 3) by (apply pow_lt, Rinv_0_lt_compat; exact Hy); lra). set (s := v' - v).
  assert (X : Cabs (Csub (f (x, v')) (f (x, v))) <= 0).
  { apply (le_limit _ _ (c * (s * s)) ltac:(apply Rmult_le_pos; [lra|nra])). intros n Hn. assert (Hn' : 0 < INR n) by (apply lt_0_INR; exact Hn). rewrite Rplus_0_l.
    assert (S : forall j, Cabs (Csub (f (x, v + INR j * (s / INR n))) (f (x, v))) <= INR j * (c * (s / INR n * (s / INR n)))).
    { assert (P : 0 <= s / INR n) by (apply Rmult_le_pos; [unfold s; lra|left; apply Rinv_0_lt_compat; exact Hn']).
      induction j as [|j IH]; [cbn [INR]; rewrite Rmult_0_l, Rplus_0_r; replace (Csub _ _) with C0 by ring; rewrite Cabs_C0; lra|].
      rewrite S_INR. pose proof (pos_INR j) as Pj. set (p := s / INR n) in *. assert (0 <= INR j * p) by (apply Rmult_le_pos; assumption).
      pose proof (real_step (x, v + INR j * p) (x, v + (INR j + 1) * p) ltac:(unfold Im; cbn [snd]; lra) ltac:(unfold Im; cbn [snd]; lra)) as R. fold c in R.
      replace (Cabs (Csub (x, v + (INR j + 1) * p) (x, v + INR j * p))) with p in R.
      - pose proof (abs_tri (f (x, v + (INR j + 1) * p)) (f (x, v + INR j * p)) (f (x, v))). lra.
      - replace (Csub (x, v + (INR j + 1) * p) (x, v + INR j * p)) with (Cmul Ci (RtoC p)) by (apply Ceq; unfold Csub, Cmul, Ci, RtoC, Re, Im; cbn [fst snd]; ring). rewrite Cabs_mul, Cabs_RtoC, (Rabs_pos_eq p) by exact P. unfold Ci. rewrite Cabs_iy; lra. }
    specialize (S n). replace (v + INR n * (s / INR n)) with v' in S by (unfold s; field; lra). eapply Rle_trans; [exact S|]. right. field. lra. }
  apply NNPP. intros N. pose proof (Cabs_pos _ (Csub_nz _ _ N)). lra.
Qed.

Lemma real_zero : forall z, y <= Im z -> f z = C0.
Proof.
  intros [x v] Hv. unfold Im in Hv. cbn [snd] in Hv. apply NNPP. intros N. pose proof (Cabs_pos _ N) as P. set (a := Cabs (f (x, v))) in *.
  set (v' := v + 4 / a). assert (A : 0 < 4 / a) by (apply Rdiv_lt_0_compat; lra). pose proof (constant_up x v v' Hv ltac:(unfold v'; lra)) as E.
  assert (B' : Cabs (f (x, v')) <= 2 * (/ v') ^ 1). { apply (f_divided v' [] (x, v')); [unfold v'; lra|repeat constructor; intros []|intros p [<- |[]]; unfold Im; cbn [snd]; lra]. }
  rewrite E in B'. fold a in B'. cbn [pow] in B'. rewrite Rmult_1_r in B'. assert (V : 4 / a < v') by (unfold v'; lra).
  assert (/ v' < / (4 / a)) by (apply Rinv_lt_contravar; [apply Rmult_lt_0_compat; lra|exact V]). replace (/ (4 / a)) with (a / 4) in * by (field; lra). lra.
Qed.

Theorem real_equal : forall z, 0 < Im z -> g z = h z.
Proof. intros z Hz. pose proof (down_all y Hy real_zero z Hz) as E. unfold f in E. replace (g z) with (Cadd (Csub (g z) (h z)) (h z)) by ring. rewrite E. ring. Qed.
End Two.

(** Newton's polynomial goes through the points. *)
Lemma nodes_in : forall l z, In z l -> nodes l z = C0.
Proof. induction l as [|b l IH]; intros z H; [destruct H|]. destruct H as [-> |I]; cbn [nodes]; [|rewrite (IH z I)]; ring. Qed.
Lemma newton_in : forall g l z, NoDup l -> In z l -> newton g l z = g z.
Proof.
  intros g l z ND. induction ND as [|b l N ND IH]; intros H; [destruct H|]. destruct H as [-> |I]; cbn [newton].
  - pose proof (remainder g l z N) as E. replace (g z) with (Cadd (newton g l z) (Csub (g z) (newton g l z))) by ring. rewrite E. reflexivity.
  - rewrite (IH I), (nodes_in l z I). ring.
Qed.

(** On a line Im z = y: imaginary parts. *)
Section Line.
Variables g h : C -> C.
Hypothesis Bg : bounded g.
Hypothesis Bh : bounded h.
Let f (z : C) : C := Csub (g z) (h z).
Variable y : R.
Hypothesis Hy : 0 < y.
Let at_y (x : R) : C := (x, y).

Lemma inv_real : forall x, Cinv (RtoC x) = RtoC (/ x).
Proof.
  intros x. unfold Cinv, RtoC, Cnorm2, Re, Im. cbn [fst snd]. destruct (Req_dec x 0) as [-> |N].
  - apply Ceq; unfold Re, Im; cbn [fst snd]; unfold Rdiv; rewrite ?Rinv_0; ring.
  - apply Ceq; unfold Re, Im; cbn [fst snd]; field; nra.
Qed.
Lemma diff_line : forall x x', Csub (at_y x) (at_y x') = RtoC (x - x').
Proof. intros. unfold at_y. apply Ceq; unfold Csub, RtoC, Re, Im; cbn [fst snd]; ring. Qed.
Lemma im_real : forall x z, Im (Cmul (RtoC x) z) = x * Im z.
Proof. intros. unfold Cmul, RtoC, Re, Im. cbn [fst snd]. ring. Qed.
Lemma divided_im : forall l x, (forall p, In p (x :: l) -> Im (f (at_y p)) = 0) -> Im (divided f (map at_y l) (at_y x)) = 0.
Proof.
  induction l as [|b l IH]; intros x H; cbn [map divided]; [apply H; left; reflexivity|]. rewrite diff_line, inv_real, im_real.
  change (Im (Csub (divided f (map at_y l) (at_y x)) (divided f (map at_y l) (at_y b)))) with (Im (divided f (map at_y l) (at_y x)) - Im (divided f (map at_y l) (at_y b))).
  rewrite (IH x), (IH b); [ring| |]; intros p I; apply H; [right; exact I|destruct I as [<- |I]; [left; reflexivity|right; right; exact I]].
Qed.
Fixpoint rnodes (l : list R) (x : R) : R := match l with [] => 1 | b :: l => (x - b) * rnodes l x end.
Lemma nodes_line : forall l x, nodes (map at_y l) (at_y x) = RtoC (rnodes l x).
Proof. induction l as [|b l IH]; intros x; cbn [map nodes rnodes]; [reflexivity|]. rewrite IH, diff_line. apply Ceq; unfold Cmul, RtoC, Re, Im; cbn [fst snd]; ring. Qed.
Lemma newton_im : forall l x, (forall p, In p l -> Im (f (at_y p)) = 0) -> Im (newton f (map at_y l) (at_y x)) = 0.
Proof.
  induction l as [|b l IH]; intros x H; cbn [map newton]; [reflexivity|]. rewrite nodes_line.
  change (Im (Cadd (newton f (map at_y l) (at_y x)) (Cmul (divided f (map at_y l) (at_y b)) (RtoC (rnodes l x))))) with (Im (newton f (map at_y l) (at_y x)) + Im (Cmul (divided f (map at_y l) (at_y b)) (RtoC (rnodes l x)))).
  rewrite IH by (intros p I; apply H; right; exact I). replace (Cmul (divided f (map at_y l) (at_y b)) (RtoC (rnodes l x))) with (Cmul (RtoC (rnodes l x)) (divided f (map at_y l) (at_y b))) by ring.
  rewrite im_real, divided_im by exact H. ring.
Qed.

(** If the imaginary part vanishes at infinitely many points near x it vanishes at x. *)
Lemma line_near : forall x (p : nat -> R), (forall i j, p i = p j -> i = j) -> (forall j, p j <> x) -> (forall j, Rabs (x - p j) <= y / 2) -> (forall j, Im (f (at_y (p j))) = 0) -> Im (f (at_y x)) = 0.
Proof.
  intros x p Inj Nx Near Zero. destruct (Req_dec (Im (f (at_y x))) 0) as [E|NZ]; [exact E|exfalso]. pose proof (Rabs_pos_lt _ NZ) as P.
  assert (X : forall n, Rabs (Im (f (at_y x))) <= 2 / y * (1 / 2) ^ n).
  { intros n. set (q := map p (seq 0 n)). set (l := map at_y q).
    assert (InjY : FinFun.Injective at_y) by (intros a b E; injection E; auto).
    assert (N : ~ In (at_y x) l). { intros I. apply in_map_iff in I as [b [E I]]. apply InjY in E. subst b. apply in_map_iff in I as [j [E _]]. exact (Nx j E). }
    assert (NDl : NoDup l) by (apply FinFun.Injective_map_NoDup; [exact InjY|]; apply FinFun.Injective_map_NoDup; [intros i j; apply Inj|apply seq_NoDup]).
    assert (Zq : forall b, In b q -> Im (f (at_y b)) = 0) by (intros b I; apply in_map_iff in I as [j [<- _]]; apply Zero).
    pose proof (remainder f l (at_y x) N) as E. apply (f_equal Im) in E. change (Im (Csub (f (at_y x)) (newton f l (at_y x)))) with (Im (f (at_y x)) - Im (newton f l (at_y x))) in E.
    unfold l in E at 1. rewrite newton_im, Rminus_0_r in E by exact Zq. rewrite E. eapply Rle_trans; [apply Im_abs_le|]. rewrite Cabs_mul.
    assert (B1' : Cabs (divided f l (at_y x)) <= 2 * (/ y) ^ S (length l)).
    { apply (f_divided g h Bg Bh); [exact Hy|constructor; assumption|]. intros z [<- |I]; [unfold Im, at_y; cbn [snd]; lra|]. apply in_map_iff in I as [b [<- _]]. unfold Im, at_y; cbn [snd]; lra. }
    assert (B2' : Cabs (nodes l (at_y x)) <= (y / 2) ^ length l).
    { apply nodes_abs; [lra|]. intros z I. apply in_map_iff in I as [b [<- I]]. apply in_map_iff in I as [j [<- _]]. rewrite diff_line, Cabs_RtoC. apply Near. }
    assert (LL : length l = n) by (unfold l, q; rewrite !map_length, seq_length; reflexivity). rewrite LL in *.
    eapply Rle_trans; [apply Rmult_le_compat; [apply Cabs_ge0|apply Cabs_ge0|exact B1'|exact B2']|]. right. cbn [pow].
    replace (2 * (/ y * (/ y) ^ n) * (y / 2) ^ n) with (2 * / y * ((/ y) ^ n * (y / 2) ^ n)) by ring. rewrite <- Rpow_mult_distr.
    replace (/ y * (y / 2)) with (1 / 2) by (field; lra). unfold Rdiv. ring. }
  set (a := Rabs (Im (f (at_y x)))) in *.
  destruct (pow_lt_1_zero (1 / 2) ltac:(rewrite Rabs_pos_eq; lra) (a * y / 2) ltac:(apply Rdiv_lt_0_compat; [apply Rmult_lt_0_compat|]; lra)) as [n Hn].
  specialize (Hn n (le_n _)). specialize (X n). assert (0 < (1 / 2) ^ n) by (apply pow_lt; lra). rewrite Rabs_pos_eq in Hn by lra.
  assert (2 / y * (1 / 2) ^ n < 2 / y * (a * y / 2)) by (apply Rmult_lt_compat_l; [apply Rdiv_lt_0_compat; lra|exact Hn]).
  replace (2 / y * (a * y / 2)) with a in * by (field; lra). lra.
Qed.

Lemma line_spread : forall a b, a < b -> (forall x, a <= x <= b -> Im (f (at_y x)) = 0) -> forall n x, a - INR n * (y / 4) <= x <= b + INR n * (y / 4) -> Im (f (at_y x)) = 0.
Proof.
  intros a b Hab H. induction n as [|n IH]; intros x Hx; [apply H; cbn [INR] in Hx; lra|]. rewrite S_INR in Hx. pose proof (pos_INR n) as Pn. assert (Py : 0 <= INR n * (y / 4)) by (apply Rmult_le_pos; lra). set (e := INR n * (y / 4)) in *.
  assert (Hx' : a - e - y / 4 <= x <= b + e + y / 4) by (unfold e; lra).
  set (s := Rmin (b - a) (y / 4)). assert (S : 0 < s <= b - a /\ s <= y / 4) by (unfold s; pose proof (Rmin_l (b - a) (y / 4)); pose proof (Rmin_r (b - a) (y / 4)); split; [split; [apply Rmin_glb_lt; lra|assumption]|assumption]).
  assert (T : forall j, 0 < s / INR (Datatypes.S j) <= s).
  { intros j. assert (1 <= INR (Datatypes.S j)) by (change 1 with (INR 1); apply le_INR; lia). split; [apply Rdiv_lt_0_compat; lra|]. apply (Rmult_le_reg_r (INR (Datatypes.S j))); [lra|]. replace (s / INR (Datatypes.S j) * INR (Datatypes.S j)) with s by (field; lra). nra. }
  assert (I : forall i j, s / INR (Datatypes.S i) = s / INR (Datatypes.S j) -> i = j).
  { intros i j E. assert (P : forall j, 0 < INR (Datatypes.S j)) by (intros; apply lt_0_INR; lia). pose proof (P i). pose proof (P j). apply Rmult_eq_reg_l in E; [|lra]. apply (f_equal Rinv) in E. rewrite !Rinv_inv in E. apply INR_eq in E. lia. }
  destruct (Rlt_le_dec (b + e) x) as [R|R]; [|destruct (Rlt_le_dec x (a - e)) as [L|L]; [|apply IH; lra]].
  - apply (line_near x (fun j => b + e - s / INR (Datatypes.S j))).
    + intros i j E. apply I. lra.
    + intros j. specialize (T j). lra.
    + intros j. specialize (T j). rewrite Rabs_pos_eq; lra.
    + intros j. specialize (T j). apply IH. lra.
  - apply (line_near x (fun j => a - e + s / INR (Datatypes.S j))).
    + intros i j E. apply I. lra.
    + intros j. specialize (T j). lra.
    + intros j. specialize (T j). rewrite Rabs_left; lra.
    + intros j. specialize (T j). apply IH. lra.
Qed.
Theorem line_all : forall a b, a < b -> (forall x, a <= x <= b -> Im (g (x, y)) = Im (h (x, y))) -> forall x, Im (g (x, y)) = Im (h (x, y)).
Proof.
  intros a b Hab H x. assert (Z : Im (f (at_y x)) = 0); [|unfold f, at_y, Csub, Im in *; cbn [fst snd] in Z; lra].
  destruct (archimed ((Rabs x + Rabs a + Rabs b) / (y / 4))) as [A _]. set (t := (Rabs x + Rabs a + Rabs b) / (y / 4)) in *.
  pose proof (Rabs_pos x). pose proof (Rabs_pos a). pose proof (Rabs_pos b). assert (T0 : 0 <= t) by (apply Rmult_le_pos; [lra|left; apply Rinv_0_lt_compat; lra]).
  assert (Hz : (0 <= up t)%Z) by (apply le_IZR; lra).
  apply (line_spread a b Hab) with (n := Z.to_nat (up t)).
  - intros z Hz'. specialize (H z Hz'). unfold f, at_y, Csub, Im in *. cbn [fst snd]. lra.
  - rewrite INR_IZR_INZ, Z2Nat.id by exact Hz. assert (Q : t * (y / 4) <= IZR (up t) * (y / 4)) by (apply Rmult_le_compat_r; lra). replace (t * (y / 4)) with (Rabs x + Rabs a + Rabs b) in Q by (unfold t; field; lra).
    pose proof (Rle_abs x). pose proof (Rle_abs a). pose proof (Rle_abs b). pose proof (Rle_abs (- x)) as X1. pose proof (Rle_abs (- a)) as X2. pose proof (Rle_abs (- b)) as X3. rewrite Rabs_Ropp in X1, X2, X3. lra.
Qed.
End Line.
