(** Property theorem C71: building a System on shared mutable objects. *)
From Coq Require Import String ZArith List Arith Bool Lia Permutation.
From Verif Require Import Base NdArray Config Spec Model Space Spec_space Render Term Equation System Spec_engine Props_Engine Props_Ids Props_Solve Heap Spec_alias.
From Verif Require Engine_proofs Heap_proofs Objects_proofs Refine_proofs Alias_proofs.
Import ListNotations.
Open Scope list_scope.
Open Scope nat_scope.

(** The System built on objects stands for the System of values, or raises the
    same exception. *)
Theorem C71_refines : forall T (h : heap T) ord ml m h' r, no_dangling h -> a_model h ml = Some m -> o_prime ord ml h = (h', r) ->
  match r, prime_system ord m with
  | Ok s, Ok v => a_model h' (os_model s) = Some (s_model v) /\ a_eqs h' (os_gen s) = Some (s_gen v) /\ a_dict h' (os_fargs s) = Some (s_fargs v) /\ a_eqs h' (os_eqs s) = Some (s_eqs v) /\
      forall e, In e (equations_of s) -> exists g i me tl d, cell_at h' e = Some (CEq g i me tl d) /\ a_model h' me = Some m
  | Err x, Err y => x = y
  | _, _ => False
  end.
Proof.
  intros T h ord ml m h' r S E R. apply Alias_proofs.dangling in S. destruct (Refine_proofs.sim_prime ord ml m h S E) as (_ & _ & M). rewrite R in M. cbn [fst snd] in M.
  destruct r as [s|x], (prime_system ord m) as [v|y] eqn:V; auto. destruct M as (n & bs & k & N & bs' & D & E1 & E2 & E3 & E4 & EO & _).
  assert (SM : s_model v = m).
  { unfold prime_system in V. destruct (generate_space m); [|discriminate]. cbn in V. destruct (generalized ord m _) as [[g f]|]; [|discriminate]. cbn in V.
    destruct (full_equations f g) as [eqs|]; [|discriminate]. cbn in V. destruct (final_checks eqs); [|discriminate]. injection V as <-. reflexivity. }
  repeat (split; [assumption|]). intros e I. rewrite Forall_forall in EO. specialize (EO e I). rewrite SM in EO. unfold Separate_proofs.a_owner in EO.
  destruct (cell_at h' e) as [[]|]; try discriminate. repeat eexists. exact EO.
Qed.
Print Assumptions C71_refines.

(** The caller's objects stay as they are, also when the constructor raises. *)
Theorem C71_untouched : forall T (h : heap T) ord ml m h' r, no_dangling h -> a_model h ml = Some m -> o_prime ord ml h = (h', r) ->
  List.length h <= List.length h' /\ same_below (List.length h) h h' /\ no_dangling h'.
Proof.
  intros T h ord ml m h' r S E R. apply Alias_proofs.dangling in S. destruct (Refine_proofs.sim_prime ord ml m h S E) as ([K1 K2] & [G _] & _). rewrite R in K1, K2, G. cbn [fst] in *.
  split; [exact K1|]. split; [intros l L; apply K2; exact L|]. apply Alias_proofs.dangling, G.
Qed.
Print Assumptions C71_untouched.

Lemma done : forall T (h : heap T) ord ml m h' s, no_dangling h -> a_model h ml = Some m -> o_prime ord ml h = (h', Ok s) ->
  exists v, prime_system ord m = Ok v /\ Refine_proofs.finished (List.length h) h' s v.
Proof.
  intros T h ord ml m h' s S E R. apply Alias_proofs.dangling in S. destruct (Refine_proofs.sim_prime ord ml m h S E) as (_ & _ & M). rewrite R in M. cbn [fst snd] in M.
  destruct (prime_system ord m) as [v|]; [|destruct M]. exists v. auto.
Qed.

(** The System refers to none of them, directly or indirectly. *)
Theorem C71_fresh : forall T (h : heap T) ord ml m h' s, no_dangling h -> a_model h ml = Some m -> o_prime ord ml h = (h', Ok s) ->
  forall x y, attribute s x -> reaches h' x y -> List.length h <= y < List.length h'.
Proof.
  intros T h ord ml m h' s S E R x y A Y. destruct (done _ _ _ _ _ _ _ S E R) as (v & _ & F). destruct (Alias_proofs.finished_region _ _ _ _ F) as (P & P1 & P2).
  assert (Py : P y). { apply (Alias_proofs.closed_reaches h' P) with (x := x); auto. intros a c b Pa Ca B. destruct (P2 a Pa) as [_ (c' & C' & Q)]. rewrite Ca in C'. injection C' as <-. auto. }
  destruct (P2 y Py) as [L (c & C & _)]. split; [exact L|]. eapply Heap_proofs.at_lt, C.
Qed.
Print Assumptions C71_fresh.

(** Changing them later does not change the System. *)
Theorem C71_later : forall T (h : heap T) ord ml m h' s h'', no_dangling h -> a_model h ml = Some m -> o_prime ord ml h = (h', Ok s) -> same_from (List.length h) h' h'' ->
  a_model h'' (os_model s) = a_model h' (os_model s) /\ a_eqs h'' (os_gen s) = a_eqs h' (os_gen s) /\ a_dict h'' (os_fargs s) = a_dict h' (os_fargs s) /\ a_eqs h'' (os_eqs s) = a_eqs h' (os_eqs s).
Proof.
  intros T h ord ml m h' s h'' S E R [_ SF]. destruct (done _ _ _ _ _ _ _ S E R) as (v & _ & F). destruct (Alias_proofs.finished_region _ _ _ _ F) as (P & P1 & P2).
  assert (I : Heap_proofs.iso P (fun x => x) h' h'').
  { apply Alias_proofs.region_iso; [intros x X; apply (P2 x X)|]. intros x X. apply SF. apply (P2 x X). }
  assert (Q : forall d, (forall e, In e (flat_map snd d) -> P e) -> a_eqs h'' d = a_eqs h' d).
  { intros d H. apply Heap_proofs.opt_map_ext. intros kv K. rewrite (Heap_proofs.opt_map_ext _ _ (a_eq h'') (a_eq h')); [reflexivity|]. intros e Ee.
    apply (Heap_proofs.iso_eq _ _ _ _ I). apply H. apply in_flat_map. eauto. }
  split; [apply (Heap_proofs.iso_model _ _ _ _ I), P1; left; reflexivity|].
  split; [apply Q; intros e Ee; apply P1; right; right; apply in_or_app; auto|].
  split; [apply (Heap_proofs.iso_dict _ _ _ _ I), P1; right; left; reflexivity|].
  apply Q. intros e Ee. apply P1. right. right. apply in_or_app. auto.
Qed.
Print Assumptions C71_later.

Lemma apart_sym : forall T (h : heap T) ord ml m h' s, no_dangling h -> a_model h ml = Some m -> o_prime ord ml h = (h', Ok s) ->
  forall i j x y z, i <> j -> nth_error (equations_of s) i = Some x -> nth_error (equations_of s) j = Some y -> reaches h' x z -> reaches h' y z ->
  exists v a b wa wb, prime_system ord m = Ok v /\ a <> b /\ i = List.length (flat_map snd (os_gen s)) + a /\ j = List.length (flat_map snd (os_gen s)) + b /\ nth_error (flat_map snd (s_eqs v)) a = Some wa /\ nth_error (flat_map snd (s_eqs v)) b = Some wb /\
    phonon_config_id (cfg (t_cfg (e_index wa))) = phonon_config_id (cfg (t_cfg (e_index wb))) /\ t_f (e_index wa) = t_f (e_index wb) /\ listed h' (os_fargs s) z /\ exists u, cell_at h' z = Some (CVec u).
Proof.
  intros T h ord ml m h' s S E R i j x y z N I J Rx Ry. destruct (done _ _ _ _ _ _ _ S E R) as (v & V & F). exists v.
  destruct (Nat.lt_total i j) as [L|[L|L]]; [|contradiction|].
  - destruct (Alias_proofs.apart _ _ _ _ F i j x y z L I J Rx Ry) as (a & b & wa & wb & A1 & A2 & A3 & A4 & A5 & A6 & A7 & A8). exists a, b, wa, wb. split; [exact V|]. split; [lia|]. auto 10.
  - destruct (Alias_proofs.apart _ _ _ _ F j i y x z L J I Ry Rx) as (a & b & wa & wb & A1 & A2 & A3 & A4 & A5 & A6 & A7 & A8). exists b, a, wb, wa. split; [exact V|]. split; [lia|]. auto 10.
Qed.

(** Whatever the Model: two equations share at most an array of the dictionary
    of deltas, and then both are full equations. *)
Theorem C71_apart : forall T (h : heap T) ord ml m h' s, no_dangling h -> a_model h ml = Some m -> o_prime ord ml h = (h', Ok s) ->
  forall i j x y z, i <> j -> nth_error (equations_of s) i = Some x -> nth_error (equations_of s) j = Some y -> reaches h' x z -> reaches h' y z ->
  List.length (flat_map snd (os_gen s)) <= i /\ List.length (flat_map snd (os_gen s)) <= j /\ listed h' (os_fargs s) z /\ exists u, cell_at h' z = Some (CVec u).
Proof.
  intros T h ord ml m h' s S E R i j x y z N I J Rx Ry. destruct (apart_sym _ _ _ _ _ _ _ S E R i j x y z N I J Rx Ry) as (v & a & b & wa & wb & _ & _ & -> & -> & _ & _ & _ & _ & A & B).
  split; [lia|]. split; [lia|]. auto.
Qed.
Print Assumptions C71_apart.

(** For the Models of C19 they share nothing at all. *)
Theorem C71_disjoint : forall T (h : heap T) ord ml m ae h' s, no_dangling h -> a_model h ml = Some m -> good_model m ae -> (forall k l, Permutation (ord k l) l) -> o_prime ord ml h = (h', Ok s) ->
  forall i j x y z, i <> j -> nth_error (equations_of s) i = Some x -> nth_error (equations_of s) j = Some y -> reaches h' x z -> reaches h' y z -> False.
Proof.
  intros T h ord ml m ae h' s S E G P R i j x y z N I J Rx Ry. destruct (apart_sym _ _ _ _ _ _ _ S E R i j x y z N I J Rx Ry) as (v & a & b & wa & wb & V & AB & _ & _ & A3 & A4 & A5 & A6 & _).
  apply AB. destruct (C19_one_equation_per_unknown T m ae ord v G P V) as [ND _].
  assert (VC : forall q0, In q0 (flat_map snd (s_eqs v)) -> valid_cloud (cfg (t_cfg (e_index q0)))).
  { intros q0 H. apply (Engine_proofs.In_blocks v) in H. destruct H as [k [es [H1 H2]]]. exact (proj1 (Engine_proofs.q_valid m ae G ord P v V k es q0 H1 H2)). }
  assert (TI : tid (e_index wa) = tid (e_index wb)).
  { pose proof (VC wa (nth_error_In _ _ A3)) as Va. pose proof (VC wb (nth_error_In _ _ A4)) as Vb. unfold tid. apply C06_term_id; auto. split; [|rewrite A6; reflexivity]. apply C06_phonon_config_id; auto. }
  unfold index_ids in ND. rewrite NoDup_nth_error in ND. apply ND; [rewrite map_length; apply nth_error_Some; congruence|].
  rewrite !nth_error_map, A3, A4. cbn [option_map]. rewrite TI. reflexivity.
Qed.
Print Assumptions C71_disjoint.

(** Two Systems built from one Model, one after the other. *)
Theorem C71_twice : forall T (h : heap T) ord ml m h1 s1 h2 r2, no_dangling h -> a_model h ml = Some m -> o_prime ord ml h = (h1, Ok s1) -> o_prime ord ml h1 = (h2, r2) ->
  exists s2, r2 = Ok s2 /\
  a_eqs h2 (os_gen s1) = a_eqs h1 (os_gen s1) /\ a_dict h2 (os_fargs s1) = a_dict h1 (os_fargs s1) /\ a_eqs h2 (os_eqs s1) = a_eqs h1 (os_eqs s1) /\
  a_eqs h2 (os_gen s2) = a_eqs h1 (os_gen s1) /\ a_dict h2 (os_fargs s2) = a_dict h1 (os_fargs s1) /\ a_eqs h2 (os_eqs s2) = a_eqs h1 (os_eqs s1) /\
  (forall x y z, attribute s1 x -> attribute s2 y -> reaches h2 x z -> reaches h2 y z -> False).
Proof.
  intros T h ord ml m h1 s1 h2 r2 S E R1 R2.
  destruct (C71_untouched _ _ _ _ _ _ _ S E R1) as (L1 & B1 & S1). pose proof (C71_refines _ _ _ _ _ _ _ S E R1) as F1. pose proof S as S0. apply Alias_proofs.dangling in S0.
  assert (Lm : ml < List.length h) by (unfold a_model in E; destruct (cell_at h ml) eqn:C; [eapply Heap_proofs.at_lt, C|discriminate]).
  assert (E1 : a_model h1 ml = Some m).
  { rewrite <- E. apply (Heap_proofs.iso_model _ _ _ _ (Heap_proofs.iso_keeps h h1 S0 (conj L1 (fun l A _ => B1 l A)))). exact Lm. }
  destruct (C71_untouched _ _ _ _ _ _ _ S1 E1 R2) as (L2 & B2 & S2). pose proof (C71_refines _ _ _ _ _ _ _ S1 E1 R2) as F2.
  destruct (prime_system ord m) as [v|] eqn:V; [|destruct F1]. destruct r2 as [s2|]; [|destruct F2]. exists s2. split; [reflexivity|].
  destruct F1 as (_ & G1 & D1 & Q1 & _). destruct F2 as (_ & G2 & D2 & Q2 & _).
  destruct (done _ _ _ _ _ _ _ S E R1) as (v' & _ & F). destruct (Alias_proofs.finished_region _ _ _ _ F) as (P & P1 & P2).
  assert (LT : forall x, P x -> x < List.length h1) by (intros x X; destruct (P2 x X) as [_ (c & C & _)]; eapply Heap_proofs.at_lt, C).
  assert (I : Heap_proofs.iso P (fun x => x) h1 h2) by (apply Alias_proofs.region_iso; [intros x X; apply (P2 x X)|intros x X; apply B2, LT, X]).
  assert (Q : forall d, (forall e, In e (flat_map snd d) -> P e) -> a_eqs h2 d = a_eqs h1 d).
  { intros d H. apply Heap_proofs.opt_map_ext. intros kv K. rewrite (Heap_proofs.opt_map_ext _ _ (a_eq h2) (a_eq h1)); [reflexivity|]. intros e Ee.
    apply (Heap_proofs.iso_eq _ _ _ _ I). apply H. apply in_flat_map. eauto. }
  split; [apply Q; intros e Ee; apply P1; right; right; apply in_or_app; auto|].
  split; [apply (Heap_proofs.iso_dict _ _ _ _ I), P1; right; left; reflexivity|].
  split; [apply Q; intros e Ee; apply P1; right; right; apply in_or_app; auto|].
  split; [congruence|]. split; [congruence|]. split; [congruence|].
  intros x y z A1 A2 X Y. destruct (C71_fresh _ _ _ _ _ _ _ S1 E1 R2 y z A2 Y) as [LZ _].
  assert (Pz : P z). { apply (Alias_proofs.closed_reaches h2 P) with (x := x); auto. intros a c b Pa Ca B. destruct (P2 a Pa) as [_ (c' & C' & Qr)]. rewrite B2 in Ca by (apply LT, Pa). rewrite Ca in C'. injection C' as <-. auto. }
  apply LT in Pz. lia.
Qed.
Print Assumptions C71_twice.

(** Every Model can be laid out on a heap. *)
Theorem C71_layout : forall T (m : model T), no_dangling (lay_out m) /\ a_model (lay_out m) (laid_at m) = Some m.
Proof. intros T m. split; [apply Alias_proofs.lay_no_dangling|apply Alias_proofs.lay_model]. Qed.
Print Assumptions C71_layout.

Lemma run_ex : forall ord (m : model Z) (c : heap Z -> osystem -> bool),
  match o_prime ord (laid_at m) (lay_out m) with (h', Ok s) => c h' s | _ => false end = true ->
  exists h' s, o_prime ord (laid_at m) (lay_out m) = (h', Ok s) /\ c h' s = true.
Proof. intros ord m c H. destruct (o_prime _ _ _) as [h' [s|]]; [|discriminate]. exists h', s. auto. Qed.

Definition refers {T} (h : heap T) (s : osystem) : bool :=
  existsb (fun e => match cell_at h e with
    | Some (CEq _ i _ _ _) =>
        match cell_at h i, cell_at h (os_fargs s) with
        | Some (CTerm o), Some (CDict D) =>
            match ot_f o with
            | Some f => existsb (fun kl => match cell_at h (snd kl) with Some (CList xs) => existsb (Nat.eqb f) xs | _ => false end) D
            | None => false
            end
        | _, _ => false
        end
    | _ => false
    end) (flat_map snd (os_eqs s)).
Lemma refers_ok : forall T (h : heap T) s, refers h s = true -> exists e z, In e (flat_map snd (os_eqs s)) /\ reaches h e z /\ listed h (os_fargs s) z.
Proof.
  intros T h s H. unfold refers in H. apply existsb_exists in H as (e & Ie & H). destruct (cell_at h e) as [[]|] eqn:Ce; try discriminate.
  destruct (cell_at h index) as [[]|] eqn:Ci; try discriminate. destruct (cell_at h (os_fargs s)) as [[]|] eqn:Cd; try discriminate. destruct (ot_f o) as [f|] eqn:Ef; [|discriminate].
  apply existsb_exists in H as ([k l] & Il & H). cbn [snd] in H. destruct (cell_at h l) as [[]|] eqn:Cl; try discriminate. apply existsb_exists in H as (x & Ix & X). apply Nat.eqb_eq in X as <-.
  exists e, f. split; [exact Ie|]. split.
  - apply reaches_on with (c := CEq green index model terms fargs) (y := index); [exact Ce|left; reflexivity|]. eapply reaches_on; [exact Ci| |constructor]. cbn [refs]. rewrite Ef, ?in_app_iff. cbn. rewrite ?in_app_iff. cbn. tauto.
  - exists d, k, l, l0. auto.
Qed.

(** The index terms of the full equations do refer to the arrays of the
    dictionary themselves (equations.py:221), not to copies. *)
Theorem C71_dictionary_refuted : exists (h : heap Z) ord ml m h' s e z, no_dangling h /\ a_model h ml = Some m /\ o_prime ord ml h = (h', Ok s) /\
  In e (flat_map snd (os_eqs s)) /\ reaches h' e z /\ listed h' (os_fargs s) z.
Proof.
  destruct (run_ex id_ord h_model (fun h' s => refers h' s)) as (h' & s & R & C); [vm_compute; reflexivity|]. destruct (refers_ok _ h' s C) as (e & z & A & B & L).
  exists (lay_out h_model), id_ord, (laid_at h_model), h_model, h', s, e, z. split; [apply C71_layout|]. split; [apply C71_layout|]. auto.
Qed.
Print Assumptions C71_dictionary_refuted.

(** The Holstein model with two phonons on two sites: 4 clouds, 7 unknowns. *)
Definition al_model : model Z := mkModel 1%Z 0%Z (mkHam h_terms2 [5%Z] 1 1%Z) None [2%Z] [2%Z] None 1.
Lemma al_good : good_model al_model 2.
Proof.
  constructor; try (simpl; lia).
  - repeat split; simpl; lia.
  - reflexivity.
  - discriminate.
  - intros [|t] H; simpl in *; lia.
  - intros [|t] H; simpl in *; lia.
  - intros h H. simpl in H. repeat (destruct H as [<-|H]; [simpl; lia|]). destruct H.
  - intros h H. simpl in H. repeat (destruct H as [<-|H]; [reflexivity|]). destruct H.
  - intros h H. simpl in H. repeat (destruct H as [<-|H]; [reflexivity|]). destruct H.
  - intros [|t] H; [|simpl in H; lia]. exists (mkHterm "Holstein" (iv 0) (iv 0) Plus 1%Z 0%nat 5%Z). simpl. auto.
  - exists (mkHterm "Holstein" (iv 0) (iv 0) Minus 1%Z 0%nat 5%Z). simpl. auto.
  - intros h h' _ H. simpl in H. repeat (destruct H as [<-|H]; [discriminate|]). destruct H.
Qed.
Example C71_nonvacuous : no_dangling (lay_out al_model) /\ a_model (lay_out al_model) (laid_at al_model) = Some al_model /\ good_model al_model 2 /\ (forall k l, Permutation (id_ord k l) l) /\
  exists h' s, o_prime id_ord (laid_at al_model) (lay_out al_model) = (h', Ok s) /\
    (Nat.eqb (List.length (flat_map snd (os_gen s))) 4 && Nat.eqb (List.length (flat_map snd (os_eqs s))) 7)%bool = true.
Proof.
  split; [apply C71_layout|]. split; [apply C71_layout|]. split; [exact al_good|]. split; [exact id_perm|].
  apply (run_ex id_ord al_model (fun _ s => (Nat.eqb (List.length (flat_map snd (os_gen s))) 4 && Nat.eqb (List.length (flat_map snd (os_eqs s))) 7)%bool)).
  vm_compute. reflexivity.
Qed.
