(** Proofs about the text of a SingleTerm (C89). *)
From Coq Require Import String Ascii ZArith QArith Qabs List Bool Lia.
From Verif Require Import Base Model Render Keys Single Spec_single.
From Verif Require Import Render_proofs.
From Verif Require Keys_proofs Memory_proofs Visual_proofs.
Import ListNotations.
Open Scope string_scope.
Open Scope Z_scope.

Definition u2 (x : Q) : Z := round_half_even (Z.abs (Qnum x) * 100) (Z.pos (Qden x)).
Lemma u2_nonneg : forall x, 0 <= u2 x.
Proof. intros x. apply Keys_proofs.round_nonneg; lia. Qed.
Lemma fmt02_is : forall x, fmt02 x = (if Qnum x <? 0 then "-" else "") ++ Memory_proofs.cents (u2 x).
Proof. reflexivity. Qed.
Lemma fmt02_numch : forall x, allc numch (fmt02 x) = true.
Proof. intros x. rewrite fmt02_is, allc_app, Memory_proofs.cents_numch. destruct (Qnum x <? 0); reflexivity. Qed.

Lemma fmt02_eq : forall x y, fmt02 x = fmt02 y -> (Qnum x <? 0) = (Qnum y <? 0) /\ u2 x = u2 y.
Proof.
  intros x y E. rewrite !fmt02_is in E. pose proof (u2_nonneg x) as X. pose proof (u2_nonneg y) as Y.
  assert (P : forall z, 0 <= z -> 0 <= z / 100) by (intros; apply Z.div_pos; lia).
  destruct (Qnum x <? 0), (Qnum y <? 0); cbn [append] in E.
  - split; [reflexivity|]. apply Memory_proofs.cents_inj; auto. apply (Keys_proofs.string_tail _ _ _ _ E).
  - symmetry in E. exfalso. exact (str_int_head _ _ _ (P _ Y) E).
  - exfalso. exact (str_int_head _ _ _ (P _ X) E).
  - split; [reflexivity|]. apply Memory_proofs.cents_inj; auto.
Qed.

Lemma fmt02_close : forall x y, fmt02 x = fmt02 y -> (Qabs (x - y) <= 1 # 100)%Q.
Proof.
  intros x y E. apply fmt02_eq in E. destruct E as [S U].
  pose proof (Keys_proofs.round_near (Z.abs (Qnum x) * 100) (Z.pos (Qden x)) ltac:(lia)) as A. fold (u2 x) in A.
  pose proof (Keys_proofs.round_near (Z.abs (Qnum y) * 100) (Z.pos (Qden y)) ltac:(lia)) as B. fold (u2 y) in B.
  rewrite U in A. remember (u2 y) as u. clear Hequ U. destruct x as [a p], y as [b q]. cbn [Qnum Qden] in *.
  unfold Qabs, Qminus, Qplus, Qopp, Qle. cbn [Qnum Qden]. rewrite Pos2Z.inj_mul. remember (Z.pos p) as P. remember (Z.pos q) as R.
  assert (0 < P) by lia. assert (0 < R) by lia.
  assert (C : 2 * Z.abs (Z.abs a * 100 * R - Z.abs b * 100 * P) <= 2 * (P * R)).
  { assert (2 * Z.abs (Z.abs a * 100 - P * u) * R <= P * R) by nia. assert (2 * Z.abs (Z.abs b * 100 - R * u) * P <= R * P) by nia.
    replace (Z.abs a * 100 * R - Z.abs b * 100 * P) with ((Z.abs a * 100 - P * u) * R - (Z.abs b * 100 - R * u) * P) by ring.
    remember (Z.abs a * 100 - P * u) as f. remember (Z.abs b * 100 - R * u) as g. nia. }
  assert (D : Z.abs (a * R + - b * P) * 100 <= P * R).
  { replace (Z.abs (a * R + - b * P) * 100) with (Z.abs (Z.abs a * 100 * R - Z.abs b * 100 * P)); [lia|]. destruct (Z.ltb_spec a 0), (Z.ltb_spec b 0); try discriminate; nia. }
  lia.
Qed.

Lemma fmt02_compat : forall x y, (x == y)%Q -> fmt02 x = fmt02 y.
Proof.
  intros [a p] [b q] E. unfold Qeq in E. cbn [Qnum Qden] in E. rewrite !fmt02_is. unfold u2. cbn [Qnum Qden].
  assert (S : (a <? 0) = (b <? 0)) by (destruct (Z.ltb_spec a 0), (Z.ltb_spec b 0); try reflexivity; nia). rewrite S. do 2 f_equal.
  rewrite <- (Keys_proofs.round_scale (Z.abs a * 100) (Z.pos p) (Z.pos q)) by lia. rewrite <- (Keys_proofs.round_scale (Z.abs b * 100) (Z.pos q) (Z.pos p)) by lia.
  f_equal; [|lia]. replace (Z.abs a * 100 * Z.pos q) with (Z.abs (a * Z.pos q) * 100) by lia. rewrite E. lia.
Qed.

Definition name_char (c : ascii) : bool := negb (Ascii.eqb c ":"%char).
Lemma plain_all : forall s, plain_name s -> allc name_char s = true /\ allc Visual_proofs.noteol s = true.
Proof.
  induction s as [|c s IH]; intros H; [split; reflexivity|]. assert (P : plain_name s) by (intros n; apply (H (S n))). destruct (IH P) as [I1 I2]. destruct (H 0%nat) as [H1 H2]. cbn [String.get] in H1, H2. cbn [allc]. rewrite I1, I2, !andb_true_r.
  unfold name_char, Visual_proofs.noteol. split; apply negb_true_iff, Ascii.eqb_neq; congruence.
Qed.

Lemma site_inj : forall v v', one_site v -> one_site v' -> str_int (hd 0 (v2 v) / 2) = str_int (hd 0 (v2 v') / 2) -> v = v'.
Proof.
  intros v v' [z ->] [z' ->] E. apply str_int_inj in E. unfold ivec in E. cbn [v2 map hd] in E. rewrite !(Z.mul_comm 2), !Z.div_mul in E by lia. congruence.
Qed.

Lemma str_inj : forall h h', plain_name (ht_type h) -> plain_name (ht_type h') -> one_site (ht_psi h) -> one_site (ht_psi h') -> one_site (ht_phi h) -> one_site (ht_phi h') ->
  single_str h = single_str h' -> ht_type h = ht_type h' /\ fmt02 (ht_coupling h) = fmt02 (ht_coupling h') /\ ht_psi h = ht_psi h' /\ ht_phi h = ht_phi h' /\ ht_dag h = ht_dag h' /\
  ht_index h = ht_index h' /\ fmt02 (ht_freq h) = fmt02 (ht_freq h').
Proof.
  intros h h' N N' A A' B B' E. unfold single_str, str_array1 in E. rewrite !app_s_assoc in E.
  apply (split_stop name_char) in E; [|apply plain_all; assumption|apply plain_all; assumption|reflexivity|reflexivity]. destruct E as [E1 E]. apply Memory_proofs.app_cancel in E.
  apply (split_stop numch) in E; [|apply fmt02_numch|apply fmt02_numch|reflexivity|reflexivity]. destruct E as [E2 E]. do 2 apply Memory_proofs.app_cancel in E.
  apply (split_stop numch) in E; [|apply str_int_numch|apply str_int_numch|reflexivity|reflexivity]. destruct E as [E3 E]. do 3 apply Memory_proofs.app_cancel in E.
  apply (split_stop numch) in E; [|apply str_int_numch|apply str_int_numch|reflexivity|reflexivity]. destruct E as [E4 E]. do 2 apply Memory_proofs.app_cancel in E.
  assert (D : ht_dag h = ht_dag h') by (destruct (ht_dag h), (ht_dag h'); try reflexivity; discriminate E). rewrite D in E. do 2 apply Memory_proofs.app_cancel in E.
  apply (split_stop numch) in E; [|apply str_int_numch|apply str_int_numch|reflexivity|reflexivity]. destruct E as [E5 E]. apply Memory_proofs.app_cancel in E.
  apply (split_stop numch) in E; [|apply fmt02_numch|apply fmt02_numch|reflexivity|reflexivity]. destruct E as [E6 _].
  apply str_int_inj in E5. split; [exact E1|]. split; [exact E2|]. split; [apply site_inj; assumption|]. split; [apply site_inj; assumption|]. split; [exact D|]. split; [lia|exact E6].
Qed.

Lemma numch_line : forall s, allc numch s = true -> allc Visual_proofs.noteol s = true.
Proof.
  intros s. apply allc_imp. intros c H. unfold Visual_proofs.noteol. destruct (Ascii.eqb_spec c (ascii_of_nat 10)) as [-> |_]; [discriminate H|reflexivity].
Qed.

Lemma str_line : forall h, plain_name (ht_type h) -> allc Visual_proofs.noteol (single_str h) = true.
Proof.
  intros h N. unfold single_str, str_array1. rewrite !allc_app, (proj2 (plain_all _ N)), !(numch_line _ (fmt02_numch _)), !(numch_line _ (str_int_numch _)). destruct (ht_dag h); reflexivity.
Qed.

Lemma str_nonempty : forall h, single_str h <> "".
Proof. intros h. unfold single_str. destruct (ht_type h); discriminate. Qed.
