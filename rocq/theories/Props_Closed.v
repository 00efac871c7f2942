(** Closed forms and corner cases: the number of generalized equations as a
    quotient of factorials, the arguments outside the usual ranges, and the
    exceptions for objects and vectors of the wrong kind. *)
From Coq Require Import String ZArith List Bool Lia Factorial.
From Verif Require Import Base NdArray Config Spec Model Space Term Spec_space Space_proofs Count_proofs Closed_proofs.
From Verif Require Import Equation System Cache Checkpoint Roots Args.
From Verif Require Import Args_proofs Checkpoint_proofs Roots_proofs Props_Engine Props_Solve Props_Checkpoint.
From Verif Require Props_Space.
Import ListNotations.
Open Scope Z_scope.

(** [t] is the number of ways to choose [N - 1] of [M + N - 1]. *)
Definition chosen (M N t : Z) : Prop :=
  t * (Z.of_nat (fact (Z.to_nat M)) * Z.of_nat (fact (Z.to_nat (N - 1)))) = Z.of_nat (fact (Z.to_nat (M + N - 1))).

Lemma chosen_binom : forall M N t, 1 <= M -> 1 <= N -> chosen M N t -> t = binom (Z.to_nat M + Z.to_nat (N - 1)) (Z.to_nat (N - 1)).
Proof.
  intros M N t HM HN H. unfold chosen in H. replace (Z.to_nat (M + N - 1)) with (Z.to_nat M + Z.to_nat (N - 1))%nat in H by lia. rewrite <- binom_fact in H.
  pose proof (lt_O_fact (Z.to_nat M)) as A. pose proof (lt_O_fact (Z.to_nat (N - 1))) as B. apply Z.mul_reg_r in H; [exact H|apply Z.neq_mul_0; lia].
Qed.
Lemma binom_chosen : forall M N, 1 <= M -> 1 <= N -> chosen M N (binom (Z.to_nat M + Z.to_nat (N - 1)) (Z.to_nat (N - 1))).
Proof. intros M N HM HN. unfold chosen. replace (Z.to_nat (M + N - 1)) with (Z.to_nat M + Z.to_nat (N - 1))%nat by lia. apply binom_fact. Qed.

(** C11: the double sum of total_generalized_equations is a binomial
    coefficient; that is also the number of clouds generated. *)
Theorem C11_closed : forall T (m : model T) M N,
  wf_model m -> m_ntypes m = 1%nat -> m_mps m = None -> m_pe m = [M] -> m_pn m = [N] -> m_aext m = None -> 1 <= M -> 1 <= N ->
  exists d t, chosen M N t /\ total_generalized_equations [M] [N] 1 = Ok t /\ generate_space m = Ok d /\ space_size d = t.
Proof.
  intros T m M N W NT MP EM EN AE HM HN. destruct (Props_Space.C11_analytic_count T m M N W NT MP EM EN AE HM HN) as (d & t & G & TT & SZ & _). exists d, t. rewrite EM, EN in TT.
  split; [|split; [exact TT|split; [exact G|exact SZ]]].
  rewrite (all_types 1 [M] [N]) in TT by (intros [|t'] Ht; [split; assumption|lia]). injection TT as <-. cbn [seq map fold_right nth]. rewrite Z.mul_1_r. apply binom_chosen; assumption.
Qed.
Print Assumptions C11_closed.

(** Several types: the product of the numbers of the types. *)
Theorem C11_product : forall nbt Ms Ns ts, List.length ts = nbt ->
  (forall t, (t < nbt)%nat -> 1 <= nth t Ms 0 /\ 1 <= nth t Ns 0 /\ chosen (nth t Ms 0) (nth t Ns 0) (nth t ts 0)) ->
  total_generalized_equations Ms Ns nbt = Ok (fold_right Z.mul 1 ts).
Proof.
  intros nbt Ms Ns ts L H. rewrite all_types by (intros t Ht; destruct (H t Ht) as (A & B & _); split; assumption). do 2 f_equal.
  apply nth_ext with (d := 0) (d' := 0); [rewrite map_length, seq_length; symmetry; exact L|]. intros t Ht. rewrite map_length, seq_length in Ht. destruct (H t Ht) as (A & B & C).
  rewrite (chosen_binom _ _ _ A B C). set (f := fun t : nat => _). rewrite (nth_indep _ 0 (f 0%nat)) by (rewrite map_length, seq_length; exact Ht). rewrite map_nth, seq_nth by exact Ht. reflexivity.
Qed.
Print Assumptions C11_product.

(** Lists too short: IndexError, except that a limit of phonons is not looked
    at when the extent leaves nothing to sum.  Empty ranges: nothing. *)
Theorem C11_short : forall M N : Z,
  total_generalized_equations [] [N] 1 = Err IndexError /\
  (1 <= M -> total_generalized_equations [M] [] 1 = Err IndexError) /\
  (M < 1 -> total_generalized_equations [M] [] 1 = Ok 0 /\ total_generalized_equations [M] [N] 1 = Ok 0) /\
  (N < 1 -> total_generalized_equations [M] [N] 1 = Ok 0).
Proof.
  intros M N. split; [reflexivity|]. assert (R : forall n, n < 1 -> range 1 (n + 1) = []) by (intros n Hn; unfold range; replace (Z.to_nat (n + 1 - 1)) with 0%nat by lia; reflexivity).
  unfold total_generalized_equations. cbn [seq mapM nth_error bind fold_right]. split; [intros H; replace (M <? 1) with false by lia; reflexivity|]. split.
  - intros H. rewrite (R M H). replace (M <? 1) with true by lia. split; reflexivity.
  - intros H. rewrite (R N H). cbn [bind fold_right]. f_equal. rewrite Z.mul_1_r. cbn [map]. change (sumZ []) with 0. generalize (range 1 (M + 1)). unfold sumZ. induction l as [|x l IH]; [reflexivity|exact IH].
Qed.
Print Assumptions C11_short.

(** One term of the sum: 1 where the number of sites is 1 or that of phonons
    is 2, otherwise the ways to choose; nothing outside. *)
Theorem C11_term : forall m n,
  (m = 1 \/ n = 2 -> combinatorics_term m n = 1) /\
  (2 <= m -> 2 <= n -> chosen (m - 1) (n - 1) (combinatorics_term m n)) /\
  (m <> 1 -> n < 2 \/ m < 1 -> n <> 2 -> combinatorics_term m n = 0).
Proof.
  intros m n. split; [|split].
  - intros [-> | ->]; unfold combinatorics_term; [reflexivity|]. rewrite Bool.orb_true_r. reflexivity.
  - intros Hm Hn. pose proof (binom_chosen (m - 1) (n - 1) ltac:(lia) ltac:(lia)) as B. replace (combinatorics_term m n) with (binom (Z.to_nat (m - 1) + Z.to_nat (n - 1 - 1)) (Z.to_nat (n - 1 - 1))); [exact B|].
    pose proof (term_two m (Z.to_nat (n - 2)) ltac:(lia)) as E. replace (Z.of_nat (Z.to_nat (n - 2)) + 2) with n in E by lia. rewrite E. replace (n - 1 - 1) with (n - 2) by lia. rewrite binom_sym. f_equal. lia.
  - intros Hm H Hn. unfold combinatorics_term, comb. replace (m =? 1) with false by lia. replace (n =? 2) with false by lia. cbn [orb].
    destruct (Z.ltb_spec (n - 2) 0); [reflexivity|]. destruct (Z.ltb_spec (m + n - 3) 0); [reflexivity|]. cbn [orb]. apply binom_gt. lia.
Qed.
Print Assumptions C11_term.

Example C11_closed_nonvacuous : chosen 3 4 20 /\ total_generalized_equations [3] [4] 1 = Ok 20 /\ chosen 2 3 6 /\ total_generalized_equations [3; 2] [4; 3] 2 = Ok 120.
Proof. repeat split; vm_compute; reflexivity. Qed.

(** C09 outside its range: without slots a non-negative total recurses for
    ever, one slot takes any total, more slots none that is negative. *)
Theorem C09_degenerate : forall s,
  (s < 0 -> config_space_gen 0 s = Ok []) /\ (0 <= s -> config_space_gen 0 s = Err RecursionError) /\
  config_space_gen 1 s = Ok [[s]] /\ (forall l, s < 0 -> config_space_gen (S (S l)) s = Ok []).
Proof.
  intros s. split; [|split; [|split]].
  - intros H. unfold config_space_gen. replace (s <? 0) with true by lia. reflexivity.
  - intros H. unfold config_space_gen. replace (s <? 0) with false by lia. reflexivity.
  - reflexivity.
  - intros l H. unfold config_space_gen. cbn [csg]. unfold range. replace (Z.to_nat (s + 1 - 0)) with 0%nat by lia. reflexivity.
Qed.
Print Assumptions C09_degenerate.

(** C14: the vectors of a term have one entry per spatial dimension of its
    cloud; otherwise the setters exit. *)
Theorem C14_lengths : forall T kd (a : nd) (h : hterm T) freqs mult c, config_init a 1 0 = Ok c ->
  (S (List.length (v2 (ht_phi h))) <> List.length (shp a) -> (1 <= List.length (shp a))%nat -> nonindex_term kd a h freqs mult = Err SystemExit) /\
  (forall t f g, nonindex_term kd a h freqs mult = Ok t -> t_f t = Some f -> t_g t = Some g -> (1 <= List.length (shp a))%nat ->
     S (List.length (v2 f)) = List.length (shp a) /\ S (List.length (v2 g)) = List.length (shp a)).
Proof.
  intros T kd a h freqs mult c E. assert (EC : cfg c = a) by (unfold config_init in E; destruct (validate_config_is_legal a); cbn [bind] in E; [injection E as <-; reflexivity|discriminate E]).
  unfold nonindex_term. rewrite E. cbn [bind]. unfold checked, guard, n_spatial. rewrite EC. split.
  - intros L P. destruct (Nat.eqb_spec (List.length (v2 (ht_phi h))) (Nat.pred (List.length (shp a)))) as [Q|Q]; [exfalso; apply L; rewrite Q; lia|]. reflexivity.
  - intros t f g. destruct (Nat.eqb_spec (List.length (v2 (ht_phi h))) (Nat.pred (List.length (shp a)))) as [Q|Q]; cbn [bind]; [|discriminate].
    destruct (vsub (ht_psi h) (ht_phi h)) as [g0|]; cbn [bind]; [|discriminate]. destruct (Nat.eqb_spec (List.length (v2 g0)) (Nat.pred (List.length (shp a)))) as [Q'|Q']; cbn [bind]; [|discriminate].
    destruct (freq_shift freqs a) as [fs|]; cbn [bind]; [|discriminate]. intros H F G P. injection H as <-. cbn in F, G. injection F as <-. injection G as <-. lia.
Qed.
Print Assumptions C14_lengths.

Definition two_sites : nd := mkNd [1; 2]%nat [1; 1].
Definition a_hop (phi : list Z) : hterm Z := mkHterm "Holstein"%string (ivec [0]) (ivec phi) Plus 1 0 1.
Example C14_lengths_nonvacuous : (exists c, config_init two_sites 1 0 = Ok c) /\
  nonindex_term KAnnih two_sites (a_hop [0; 0]) [1] 1 = Err SystemExit /\ (exists t, nonindex_term KAnnih two_sites (a_hop [0]) [1] 1 = Ok t).
Proof. split; [eexists; vm_compute; reflexivity|]. split; [vm_compute; reflexivity|eexists; vm_compute; reflexivity]. Qed.

Open Scope string_scope.
(** C63: the other objects.  Nothing happens to the disk. *)
Theorem C63_objects : forall (T : Type) (ord : string -> list vec -> list vec) (s : rsystem T) (x : @pyarg T) r k,
  (match x with PNone | PPath _ => False | _ => True end ->
     basic_new ord [PSystem s; x] [] k = (k, Err TypeError) /\ basic_new ord [] [("system", PSystem s); ("root", x)] k = (k, Err TypeError) /\
     mumps_new ord [] [("system", PSystem s); ("root", x); ("mpi_comm", PComm)] k = (k, Err TypeError)) /\
  (match x with PNone | PSystem _ => False | _ => True end ->
     basic_new ord [x; PPath r] [] k = (k, Err AttributeError) /\ basic_new ord [] [("system", x)] k = (k, Err AttributeError) /\
     mumps_new ord [] [("system", x); ("mpi_comm", PComm)] k = (k, Err AttributeError)).
Proof. intros T ord s x r k. split; intros H; destruct x; try contradiction; repeat split; reflexivity. Qed.
Print Assumptions C63_objects.

Example C63_objects_nonvacuous : exists (s : rsystem Z) k1, new_rsystem id_ord h_model 10 None (fun _ => no_files) = (k1, Ok s) /\
  basic_new id_ord [PSystem s; PBool true] [] k1 = (k1, Err TypeError) /\ basic_new id_ord [PPath "r"] [] k1 = (k1, Err AttributeError).
Proof.
  destruct (sys_ex id_ord h_model (fun s => Nat.eqb (List.length (flat_map snd (s_eqs s))) 3)) as [s [E _]]; [vm_compute; reflexivity|].
  eexists. eexists. split; [unfold new_rsystem; rewrite (new_result id_ord h_model 10 false no_files), E; reflexivity|]. split; reflexivity.
Qed.
