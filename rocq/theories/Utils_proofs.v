(** Lemmas on Utils.v. *)
From Coq Require Import String ZArith Znumtheory List Bool Lia.
From Verif Require Import Base Space Utils Spec_mpi.
Import ListNotations.
Open Scope list_scope.
Open Scope Z_scope.

(** * Strings and directories *)
Lemma append_inj_r : forall s a b, append a s = append b s -> a = b.
Proof.
  assert (LA : forall x y, String.length (append x y) = (String.length x + String.length y)%nat) by (induction x; intros y; simpl; [|rewrite IHx]; reflexivity).
  intros s a. induction a as [|c a IH]; intros b E.
  - destruct b as [|c b]; [reflexivity|]. apply (f_equal String.length) in E. simpl in E. rewrite LA in E. lia.
  - destruct b as [|d b].
    + apply (f_equal String.length) in E. simpl in E. rewrite LA in E. lia.
    + simpl in E. inversion E; subst. f_equal. apply IH. assumption.
Qed.

Lemma put_new : forall A n (v : list A) d, ~ In n (map fst d) -> put n v d = d ++ [(n, v)].
Proof.
  induction d as [|[m x] d IH]; intros H; [reflexivity|]. cbn [put map fst In app] in *.
  destruct (String.eqb_spec m n) as [->|_]; [exfalso; apply H; left; reflexivity|]. rewrite IH; [reflexivity|]. intros X; apply H; right; exact X.
Qed.

(** * Buffer *)
Section BufferFacts.
Context {A : Type}.
Variable uuid : nat -> string.
Hypothesis inj : forall i j, uuid i = uuid j -> i = j.
Let name i := append (uuid i) ".pkl".

(** What holds after any history that started with the files [d0]. *)
Record buffer_inv (nbuff : Z) (d0 : folder A) (vals : list A) (s : bstate A) : Prop := {
  bi_nbuff : b_nbuff (bs_buf s) = nbuff;
  bi_count : b_counter (bs_buf s) = len (b_queue (bs_buf s));
  bi_small : b_counter (bs_buf s) < Z.max 1 nbuff;
  bi_files : exists fs, bs_dir s = d0 ++ fs /\ List.concat (map snd fs) ++ b_queue (bs_buf s) = vals /\
               map fst fs = map name (seq 0 (bs_used s)) /\
               forall f, In f fs -> 1 <= len (snd f) <= Z.max 1 nbuff }.

Lemma flush_inv : forall nbuff d0 vals s, (forall i, ~ In (name i) (map fst d0)) ->
  b_nbuff (bs_buf s) = nbuff -> b_counter (bs_buf s) = len (b_queue (bs_buf s)) -> b_counter (bs_buf s) <= Z.max 1 nbuff ->
  (exists fs, bs_dir s = d0 ++ fs /\ List.concat (map snd fs) ++ b_queue (bs_buf s) = vals /\
               map fst fs = map name (seq 0 (bs_used s)) /\ forall f, In f fs -> 1 <= len (snd f) <= Z.max 1 nbuff) ->
  buffer_inv nbuff d0 vals (flush uuid s) /\ b_queue (bs_buf (flush uuid s)) = [].
Proof.
  intros nbuff d0 vals s Fr Hn Hc Hs [fs [F1 [F2 [F3 F4]]]]. unfold flush.
  destruct (Z.ltb_spec 0 (b_counter (bs_buf s))) as [Hp|Hp].
  - split; [|reflexivity]. constructor; cbn [bs_buf b_nbuff b_counter b_queue bs_dir bs_used]; [exact Hn|reflexivity|lia|].
    exists (fs ++ [(name (bs_used s), b_queue (bs_buf s))]). split; [|split; [|split]].
    + rewrite put_new. { rewrite F1, app_assoc. reflexivity. }
      rewrite F1, map_app, in_app_iff. intros [H|H]; [exact (Fr _ H)|]. rewrite F3 in H. apply in_map_iff in H. destruct H as [i [E H]].
      apply append_inj_r in E. apply inj in E. apply in_seq in H. lia.
    + rewrite map_app, concat_app. cbn. rewrite !app_nil_r. exact F2.
    + rewrite map_app, F3, seq_S, map_app. reflexivity.
    + intros f Hf. apply in_app_or in Hf. destruct Hf as [Hf|[<-|[]]]; [exact (F4 f Hf)|]. cbn [snd]. lia.
  - assert (Q : b_queue (bs_buf s) = []) by (destruct (b_queue (bs_buf s)); [reflexivity|unfold len in *; cbn [List.length] in *; lia]).
    split; [|exact Q]. constructor; [exact Hn|exact Hc|lia|]. exists fs. auto.
Qed.

Lemma step_inv : forall nbuff d0 vals s o, (forall i, ~ In (name i) (map fst d0)) -> buffer_inv nbuff d0 vals s ->
  buffer_inv nbuff d0 (vals ++ op_values [o]) (buffer_step uuid s o).
Proof.
  intros nbuff d0 vals s o Fr [B1 B2 B3 [fs [F1 [F2 [F3 F4]]]]]. destruct o as [v|]; cbn [buffer_step op_values flat_map app].
  - unfold call. set (s' := mkBst _ (bs_dir s) (bs_used s)).
    assert (HC : b_counter (bs_buf s') = len (b_queue (bs_buf s'))) by (unfold s', len in *; cbn [bs_buf b_counter b_queue]; rewrite app_length; cbn [List.length]; lia).
    assert (HF : exists fs0, bs_dir s' = d0 ++ fs0 /\ List.concat (map snd fs0) ++ b_queue (bs_buf s') = vals ++ [v] /\
               map fst fs0 = map name (seq 0 (bs_used s')) /\ forall f, In f fs0 -> 1 <= len (snd f) <= Z.max 1 nbuff).
    { exists fs. unfold s'. cbn [bs_dir bs_used bs_buf b_queue]. rewrite app_assoc, F2. auto. }
    cbn [b_nbuff b_counter]. destruct (Z.leb_spec (b_nbuff (bs_buf s)) (b_counter (bs_buf s) + 1)) as [H|H].
    + apply flush_inv; try assumption. unfold s'. cbn [bs_buf b_counter]. lia.
    + constructor; try assumption. unfold s'; cbn [bs_buf b_counter]. lia.
  - rewrite app_nil_r. apply flush_inv; try assumption; [lia|]. exists fs; auto.
Qed.

Lemma run_inv : forall nbuff d0 ops, (forall i, ~ In (name i) (map fst d0)) ->
  buffer_inv nbuff d0 (op_values ops) (buffer_run uuid (mkBst (b_init nbuff) d0 0) ops).
Proof.
  intros nbuff d0 ops Fr. induction ops as [|o ops IH] using rev_ind.
  - constructor; cbn; try lia. exists []. rewrite app_nil_r. split; [reflexivity|]. split; [reflexivity|]. split; [reflexivity|]. intros f [].
  - unfold buffer_run, op_values. rewrite fold_left_app, flat_map_app. cbn [fold_left]. apply step_inv; assumption.
Qed.

Lemma flush_empties : forall s : bstate A, b_counter (bs_buf s) = len (b_queue (bs_buf s)) -> b_queue (bs_buf (flush uuid s)) = [].
Proof.
  intros s Hc. unfold flush. destruct (Z.ltb_spec 0 (b_counter (bs_buf s))) as [Hp|Hp]; [reflexivity|].
  destruct (b_queue (bs_buf s)); [reflexivity|unfold len in *; cbn [List.length] in *; lia].
Qed.

(** Without explicit flushes every file is full. *)
Lemma puts_full : forall nbuff d0 (vals : list A), (forall i, ~ In (name i) (map fst d0)) ->
  exists fs, bs_dir (buffer_run uuid (mkBst (b_init nbuff) d0 0) (map Put vals)) = d0 ++ fs /\ forall f, In f fs -> len (snd f) = Z.max 1 nbuff.
Proof.
  intros nbuff d0 vals Fr. induction vals as [|v vals IH] using rev_ind.
  - exists []. rewrite app_nil_r. split; [reflexivity|intros f []].
  - destruct IH as [fs [E F]]. rewrite map_app. cbn [map]. unfold buffer_run in *. rewrite fold_left_app. cbn [fold_left buffer_step].
    pose proof (run_inv nbuff d0 (map Put vals) Fr) as I. unfold buffer_run in I.
    set (s := fold_left _ _ _) in *. destruct I as [B1 B2 B3 _]. unfold call. cbn [b_nbuff b_counter].
    destruct (Z.leb_spec (b_nbuff (bs_buf s)) (b_counter (bs_buf s) + 1)) as [H|H]; [|exists fs; split; assumption].
    pose proof (run_inv nbuff d0 (map Put vals) Fr) as I. unfold buffer_run in I. fold s in I. destruct I as [_ _ _ [fs' [G1 [_ [G3 _]]]]].
    unfold flush. cbn [bs_buf b_counter b_queue b_nbuff bs_dir bs_used]. destruct (Z.ltb_spec 0 (b_counter (bs_buf s) + 1)) as [Hp|Hp]; [|unfold len in B2; lia].
    cbn [bs_dir]. exists (fs ++ [(name (bs_used s), b_queue (bs_buf s) ++ [v])]). split.
    + rewrite put_new. { rewrite E, app_assoc. reflexivity. }
      rewrite G1, map_app, in_app_iff. intros [X|X]; [exact (Fr _ X)|]. rewrite G3 in X. apply in_map_iff in X. destruct X as [i [Ei X]].
      apply append_inj_r in Ei. apply inj in Ei. apply in_seq in X. lia.
    + intros f Hf. apply in_app_or in Hf. destruct Hf as [Hf|[<-|[]]]; [exact (F f Hf)|]. cbn [snd]. unfold len in *. rewrite app_length. cbn [List.length]. lia.
Qed.
End BufferFacts.

(** * Ranges *)
Lemma in_range : forall x a b, In x (range a b) <-> a <= x < b.
Proof.
  intros x a b. unfold range. rewrite in_map_iff. split.
  - intros [i [<- H]]. apply in_seq in H. lia.
  - intros H. exists (Z.to_nat (x - a)). split; [lia|]. apply in_seq. lia.
Qed.
Lemma length_range : forall a b, List.length (range a b) = Z.to_nat (b - a).
Proof. intros a b. unfold range. rewrite map_length, seq_length. reflexivity. Qed.
Lemma nth_range : forall a b i d, (i < Z.to_nat (b - a))%nat -> nth i (range a b) d = a + Z.of_nat i.
Proof.
  intros a b i d H. unfold range. rewrite (nth_indep _ d (a + Z.of_nat 0)) by (rewrite map_length, seq_length; exact H).
  rewrite (map_nth (fun i => a + Z.of_nat i)). rewrite seq_nth by exact H. reflexivity.
Qed.
(** [find] on a range returns the least element satisfying the test *)
Lemma find_range : forall f a b, match find f (range a b) with
  | Some x => a <= x < b /\ f x = true /\ forall y, a <= y < x -> f y = false
  | None => forall y, a <= y < b -> f y = false end.
Proof.
  intros f a b. unfold range. remember (Z.to_nat (b - a)) as n eqn:En.
  assert (G : forall n s, match find f (map (fun i => a + Z.of_nat i) (seq s n)) with
    | Some x => a + Z.of_nat s <= x < a + Z.of_nat (s + n) /\ f x = true /\ forall y, a + Z.of_nat s <= y < x -> f y = false
    | None => forall y, a + Z.of_nat s <= y < a + Z.of_nat (s + n) -> f y = false end).
  { clear n En. induction n as [|n IH]; intros s; cbn [seq map find].
    - intros y H. lia.
    - destruct (f (a + Z.of_nat s)) eqn:E.
      + split; [lia|]. split; [exact E|]. intros y H. lia.
      + specialize (IH (S s)). destruct (find f _) as [x|].
        * destruct IH as [H1 [H2 H3]]. split; [lia|]. split; [exact H2|]. intros y Hy. destruct (Z.eq_dec y (a + Z.of_nat s)) as [->|]; [exact E|]. apply H3. lia.
        * intros y Hy. destruct (Z.eq_dec y (a + Z.of_nat s)) as [->|]; [exact E|]. apply IH. lia. }
  specialize (G n 0%nat). rewrite Nat.add_0_l in G. destruct (find f _) as [x|].
  - destruct G as [H1 [H2 H3]]. split; [lia|]. split; [exact H2|]. intros y H. apply H3. lia.
  - intros y H. apply G. lia.
Qed.

(** * Padding *)
Lemma num_pads_ok : forall f l B ext n, 1 <= B -> num_pads f l B ext = Ok n <-> least_pad f l B n /\ n < ext.
Proof.
  intros f l B ext n HB. unfold num_pads. pose proof (find_range (fun ii => (f * (l + ii)) mod B =? 0) 0 ext) as H.
  assert (D : forall y, ((f * (l + y)) mod B =? 0) = true <-> (B | f * (l + y))).
  { intros y. rewrite Z.eqb_eq. apply Z.mod_divide. lia. }
  destruct (find _ _) as [x|].
  - destruct H as [H1 [H2 H3]]. apply D in H2.
    assert (L : forall y, 0 <= y < x -> ~ (B | f * (l + y))).
    { intros y Hy X. apply D in X. rewrite H3 in X by exact Hy. discriminate. }
    split.
    + intros E. injection E as <-. split; [|lia]. repeat split; try assumption. lia.
    + intros [[P1 [P2 P3]] P4]. destruct (Z.lt_trichotomy n x) as [Q|[->|Q]]; [|reflexivity|].
      * exfalso. apply (L n); [lia|assumption].
      * exfalso. apply (P3 x); [lia|assumption].
  - split; [discriminate|]. intros [[P1 [P2 P3]] P4]. apply D in P2. rewrite H in P2 by lia. discriminate.
Qed.

Lemma least_pad_closed : forall f l B, 1 <= B -> least_pad f l B ((- l) mod (B / Z.gcd f B)).
Proof.
  intros f l B HB. set (g := Z.gcd f B). assert (Hg : 0 < g).
  { pose proof (Z.gcd_nonneg f B) as H. destruct (Z.eq_dec g 0) as [E|E]; [|unfold g in *; lia]. unfold g in E. apply Z.gcd_eq_0_r in E. lia. }
  destruct (Z.gcd_divide_r f B) as [b Hb]. fold g in Hb. destruct (Z.gcd_divide_l f B) as [a Ha]. fold g in Ha.
  assert (Eb : B / g = b) by (rewrite Hb; apply Z.div_mul; lia). rewrite Eb.
  assert (Pb : 0 < b) by nia.
  assert (RP : rel_prime a b).
  { apply Zgcd_1_rel_prime. assert (E : Z.gcd (f / g) (B / g) = 1) by (apply Z.gcd_div_gcd; [lia|reflexivity]).
    rewrite Eb in E. replace (f / g) with a in E by (rewrite Ha; symmetry; apply Z.div_mul; lia). exact E. }
  assert (D : forall y, (B | f * y) <-> (b | y)).
  { intros y. split.
    - intros [c Hc]. apply Gauss with a; [|apply rel_prime_sym; exact RP]. exists c. apply (Z.mul_cancel_r _ _ g); [lia|]. replace (a * y * g) with (a * g * y) by ring. rewrite <- Ha, Hc. rewrite Hb at 1. ring.
    - intros [c Hc]. exists (a * c). rewrite Hc. rewrite Ha at 1. rewrite Hb at 1. ring. }
  pose proof (Z.mod_pos_bound (- l) b Pb) as Hm. split; [lia|]. split.
  - apply D. apply Z.mod_divide; [lia|]. rewrite Zplus_mod_idemp_r. rewrite Z.add_opp_diag_r. apply Z.mod_0_l. lia.
  - intros n' Hn X. apply D in X. destruct X as [c Hc]. assert (E : (- l) mod b = n' mod b).
    { replace (- l) with (n' + (- c) * b) by lia. apply Z.mod_add. lia. }
    remember ((- l) mod b) as r eqn:Er. clear Er. rewrite (Z.mod_small n' b) in E by lia. lia.
Qed.

Lemma least_pad_unique : forall f l B n n', least_pad f l B n -> least_pad f l B n' -> n = n'.
Proof.
  intros f l B n n' [A1 [A2 A3]] [B1 [B2 B3]]. destruct (Z.lt_trichotomy n n') as [Q|[E|Q]]; [|exact E|]; exfalso.
  - apply (B3 n); [lia|assumption].
  - apply (A3 n'); [lia|assumption].
Qed.

Lemma least_pad_bound : forall f l B n, 1 <= B -> least_pad f l B n -> n < B.
Proof.
  intros f l B n HB L. rewrite (least_pad_unique f l B n _ L (least_pad_closed f l B HB)).
  assert (Hg : 0 < Z.gcd f B).
  { pose proof (Z.gcd_nonneg f B) as H. destruct (Z.eq_dec (Z.gcd f B) 0) as [E|E]; [|lia]. apply Z.gcd_eq_0_r in E. lia. }
  destruct (Z.gcd_divide_r f B) as [b Hb]. rewrite Hb at 1. rewrite Z.div_mul by lia. pose proof (Z.mod_pos_bound (- l) b ltac:(nia)). nia.
Qed.

Section PadFacts.
Context {T : Type}.
Variable G : gridops T.

Lemma split_last2 : forall (x : list T), (2 <= List.length x)%nat -> exists init p q, x = init ++ [p; q].
Proof.
  intros x H. destruct (rev x) as [|q [|p r]] eqn:E.
  - apply (f_equal (@List.length T)) in E. rewrite rev_length in E. cbn in E. lia.
  - apply (f_equal (@List.length T)) in E. rewrite rev_length in E. cbn in E. lia.
  - exists (rev r), p, q. rewrite <- (rev_involutive x), E. cbn [rev]. rewrite <- app_assoc. reflexivity.
Qed.

Lemma pad_points_spec : forall x n, 0 <= n ->
  (forall x', pad_points G x n = Ok x' <-> (continues G x x' n)) /\ ((List.length x < 2)%nat -> pad_points G x n = Err IndexError).
Proof.
  intros x n Hn. split.
  - intros x'. unfold pad_points. split.
    + destruct (rev x) as [|q [|p r]] eqn:E; try discriminate. intros H. injection H as <-.
      assert (X : x = rev r ++ [p; q]) by (rewrite <- (rev_involutive x), E; cbn [rev]; rewrite <- app_assoc; reflexivity).
      exists (rev r), p, q. split; [exact X|]. split; [|split].
      * rewrite app_length, map_length, length_range. f_equal. lia.
      * rewrite firstn_app, Nat.sub_diag, firstn_O, app_nil_r. apply firstn_all.
      * intros i d Hi. rewrite app_nth2_plus. set (F := fun ii => _). rewrite (nth_indep _ d (F 0)) by (rewrite map_length, length_range; lia).
        rewrite (map_nth F). rewrite nth_range by lia. unfold F. do 2 f_equal. lia.
    + intros [init [p [q [X [H1 [H2 H3]]]]]]. subst x. rewrite rev_app_distr. cbn [rev app]. f_equal.
      rewrite <- (firstn_skipn (List.length (init ++ [p; q])) x'), H2. f_equal.
      apply nth_ext with (d := q) (d' := q).
      * rewrite map_length, length_range, skipn_length. lia.
      * intros i Hi. rewrite map_length, length_range in Hi. set (F := fun ii => _). rewrite (nth_indep _ q (F 0)) by (rewrite map_length, length_range; lia).
        rewrite (map_nth F), nth_range by lia. unfold F. rewrite <- (firstn_skipn (List.length (init ++ [p; q])) x') in H3. rewrite H2 in H3.
        specialize (H3 (Z.of_nat i) q ltac:(lia)). rewrite app_nth2_plus, Nat2Z.id in H3. rewrite H3. do 2 f_equal. lia.
  - intros H. unfold pad_points. destruct (rev x) as [|q [|p r]] eqn:E; try reflexivity.
    apply (f_equal (@List.length T)) in E. rewrite rev_length in E. cbn in E. lia.
Qed.

Lemma pad_points_ok : forall x n, (2 <= List.length x)%nat -> exists x', pad_points G x n = Ok x'.
Proof. intros x n H. destruct (split_last2 x H) as [i [p [q ->]]]. unfold pad_points. rewrite rev_app_distr. cbn [rev app]. eexists. reflexivity. Qed.

Lemma padded_kw_ok : forall k w B ext k' w', 1 <= B ->
  padded_kw G k w B ext = Ok (k', w') <->
  (1 < len w /\ k' = k /\ exists n, least_pad (len k) (len w) B n /\ n < ext /\ continues G w w' n) \/
  (len w <= 1 /\ w' = w /\ exists n, least_pad (len w) (len k) B n /\ n < ext /\ continues G k k' n).
Proof.
  intros k w B ext k' w' HB. unfold padded_kw. destruct (Z.ltb_spec 1 (len w)) as [H|H].
  - split.
    + destruct (num_pads _ _ _ _) as [n|] eqn:E; [|discriminate]. cbn [bind]. apply num_pads_ok in E; [|lia]. destruct E as [L E].
      destruct (pad_points G w n) as [x|] eqn:E'; [|discriminate]. cbn [bind]. intros X. injection X as <- <-. left. split; [exact H|]. split; [reflexivity|].
      exists n. split; [exact L|]. split; [exact E|]. apply pad_points_spec in E'; [exact E'|apply L].
    + intros [[_ [-> [n [L [E C]]]]]|[H' _]]; [|lia]. rewrite (proj2 (num_pads_ok _ _ _ _ _ HB) (conj L E)). cbn [bind].
      rewrite (proj2 (proj1 (pad_points_spec w n (proj1 L)) w') C). reflexivity.
  - split.
    + destruct (num_pads _ _ _ _) as [n|] eqn:E; [|discriminate]. cbn [bind]. apply num_pads_ok in E; [|lia]. destruct E as [L E].
      destruct (pad_points G k n) as [x|] eqn:E'; [|discriminate]. cbn [bind]. intros X. injection X as <- <-. right. split; [exact H|]. split; [reflexivity|].
      exists n. split; [exact L|]. split; [exact E|]. apply pad_points_spec in E'; [exact E'|apply L].
    + intros [[H' _]|[_ [-> [n [L [E C]]]]]]; [lia|]. rewrite (proj2 (num_pads_ok _ _ _ _ _ HB) (conj L E)). cbn [bind].
      rewrite (proj2 (proj1 (pad_points_spec k n (proj1 L)) k') C). reflexivity.
Qed.

Lemma num_pads_err : forall f l B ext x, num_pads f l B ext = Err x -> x = IndexError.
Proof. intros f l B ext x. unfold num_pads. destruct (find _ _); congruence. Qed.

Lemma padded_kw_total : forall k w B ext, 1 <= B <= ext -> 1 < len w \/ 1 < len k -> exists r, padded_kw G k w B ext = Ok r.
Proof.
  intros k w B ext HB H. unfold padded_kw.
  assert (L : forall f l, exists n, num_pads f l B ext = Ok n).
  { intros f l. eexists. apply num_pads_ok; [lia|]. split; [apply least_pad_closed; lia|].
    pose proof (least_pad_bound f l B _ ltac:(lia) (least_pad_closed f l B ltac:(lia))). lia. }
  destruct (Z.ltb_spec 1 (len w)) as [Hw|Hw].
  - destruct (L (len k) (len w)) as [n ->]. cbn [bind]. destruct (pad_points_ok w n) as [x ->]; [unfold len in *; lia|]. cbn [bind]. eexists. reflexivity.
  - destruct (L (len w) (len k)) as [n ->]. cbn [bind]. destruct (pad_points_ok k n) as [x ->]; [unfold len in *; lia|]. cbn [bind]. eexists. reflexivity.
Qed.

Lemma padded_kw_err : forall k w B ext x, padded_kw G k w B ext = Err x -> x = IndexError.
Proof.
  intros k w B ext x. unfold padded_kw, pad_points. destruct (1 <? len w).
  - destruct (num_pads _ _ _ _) as [n|] eqn:E; cbn [bind].
    + destruct (rev w) as [|? [|? ?]]; cbn [bind]; congruence.
    + apply num_pads_err in E. congruence.
  - destruct (num_pads _ _ _ _) as [n|] eqn:E; cbn [bind].
    + destruct (rev k) as [|? [|? ?]]; cbn [bind]; congruence.
    + apply num_pads_err in E. congruence.
Qed.
End PadFacts.
