(** Property theorems C64: the numbers in file names. *)
From Coq Require Import String Ascii ZArith QArith Qabs List Bool Lia Lqa.
From Verif Require Import Base Render Keys Keys_proofs Spec_names Names_proofs.
Import ListNotations.
Open Scope list_scope.
Open Scope Z_scope.

(** Ten decimals, a minus sign exactly for negative numbers, and the nearest
    multiple of 1e-10, ties to even. *)
Theorem C64_value : forall x, exists u neg, read_decimal (fmt10 x) = Some (neg, u, 10%nat) /\ (neg = true <-> (x < 0)%Q) /\ nearest x u.
Proof.
  intros x. exists (units x), (Qnum x <? 0). split; [apply read_fmt|]. split; [symmetry; apply neg_iff|apply units_nearest].
Qed.
Print Assumptions C64_value.

(** Numbers that are multiples of 1e-10 are written exactly. *)
Theorem C64_exact : forall u : Z, exists neg, read_decimal (fmt10 (u # 10000000000)) = Some (neg, Z.abs u, 10%nat).
Proof.
  intros u. exists (u <? 0). rewrite read_fmt. cbn [Qnum]. do 3 f_equal. apply (nearest_unique (u # 10000000000)); [apply units_nearest|].
  assert (Z0 : (Qabs (Qabs (u # 10000000000) * inject_Z 10000000000 - inject_Z (Z.abs u)) == 0)%Q).
  { rewrite err_eq. cbn [Qnum Qden]. unfold ten10. replace (Z.abs u * 10000000000 - 10000000000 * Z.abs u) with 0 by ring. reflexivity. }
  unfold nearest. cbv zeta. rewrite Z0. split; [discriminate|]. intros H. discriminate H.
Qed.
Print Assumptions C64_exact.

(** When two points have the same file. *)
Theorem C64_result_names : forall k w e k' w' e', result_name fmt10 k w e = result_name fmt10 k' w' e' <-> alike k k' /\ alike w w' /\ alike e e'.
Proof. exact result_alike. Qed.
Theorem C64_matrix_names : forall k w e k' w' e', matrix_name fmt10 k w e = matrix_name fmt10 k' w' e' <-> alike k k' /\ alike w w' /\ alike e e'.
Proof. exact matrix_alike. Qed.
Print Assumptions C64_result_names.
Print Assumptions C64_matrix_names.

(** Results and matrices never have the same name. *)
Theorem C64_disjoint : forall k w e k' w' e', result_name fmt10 k w e <> matrix_name fmt10 k' w' e'.
Proof. exact names_disjoint. Qed.
Print Assumptions C64_disjoint.

(** Being alike is an equivalence; equal numbers are alike, numbers more than
    1e-10 apart are not, and that bound cannot be lowered. *)
Theorem C64_alike : (forall x y, (x == y)%Q -> alike x y) /\ (forall x y, alike x y -> alike y x) /\ (forall x y z, alike x y -> alike y z -> alike x z) /\
  (forall x y, alike x y -> (Qabs (x - y) <= 1 # 10000000000)%Q) /\
  (forall n, 0 <= n -> exists x y, alike x y /\ (inject_Z n <= x)%Q /\ (Qabs (x - y) == 1 # 10000000000)%Q).
Proof.
  split; [intros x y H; apply fmt10_alike, fmt10_compat, H|]. split; [intros x y H; apply fmt10_alike; symmetry; apply fmt10_alike, H|].
  split; [intros x y z A B; apply fmt10_alike; transitivity (fmt10 y); apply fmt10_alike; assumption|].
  split; [intros x y H; apply fmt10_close, fmt10_alike, H|].
  intros n N. remember (2 * (n * 10000000000 + 2)) as c. exists ((c + 1) # 20000000000), ((c - 1) # 20000000000). split; [|split].
  - split; [unfold Qlt; cbn [Qnum Qden]; lia|]. exists (n * 10000000000 + 2). unfold nearest. cbv zeta. rewrite !err_eq. cbn [Qnum Qden]. unfold ten10.
    assert (E : Z.Even (n * 10000000000 + 2)) by (exists (n * 5000000000 + 1); lia).
    split; (split; [unfold Qle; cbn [Qnum Qden]; lia|intros _; exact E]).
  - unfold Qle, inject_Z. cbn [Qnum Qden]. lia.
  - unfold Qeq, Qabs, Qminus, Qplus, Qopp. cbn [Qnum Qden]. rewrite Pos2Z.inj_mul. lia.
Qed.
Print Assumptions C64_alike.

(** Points that are arbitrarily close can have different files: at a change of
    sign or in the middle between two units. *)
Theorem C64_close_refuted : forall eps, (0 < eps)%Q -> exists x y, (Qabs (x - y) < eps)%Q /\ ~ alike x y.
Proof.
  intros eps E. exists 0%Q, (- (eps * (1 # 2)))%Q. split.
  - rewrite Qabs_pos; lra.
  - intros [[_ H] _]. assert (X : (- (eps * (1 # 2)) < 0)%Q) by lra. apply H in X. discriminate X.
Qed.
Print Assumptions C64_close_refuted.

Example C64_nonvacuous : fmt10 (-7 # 4)%Q = "-1.7500000000"%string /\ fmt10 (1 # 3)%Q = "0.3333333333"%string /\ fmt10 (5 # 100000000000)%Q = "0.0000000000"%string /\
  fmt10 (15 # 100000000000)%Q = "0.0000000002"%string /\ alike (15 # 100000000000) (25 # 100000000000) /\ ~ alike (1 # 3) (1 # 4) /\
  result_name fmt10 (1 # 2)%Q (-2 # 1)%Q (1 # 100)%Q = "0.5000000000_-2.0000000000_0.0100000000.pkl"%string.
Proof.
  do 4 (split; [vm_compute; reflexivity|]). split; [apply fmt10_alike; vm_compute; reflexivity|]. split; [|vm_compute; reflexivity].
  rewrite <- fmt10_alike. vm_compute. discriminate.
Qed.
