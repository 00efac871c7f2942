(** Priming a System on the heap stands for [prime_system] on values. *)
From Coq Require Import String ZArith List Arith Bool Lia.
From Verif Require Import Base NdArray Config Model Space Render Term Equation System NdArray_proofs Heap Heap_proofs Objects_proofs Build_proofs Separate_proofs Master_proofs.
Import ListNotations.
Open Scope list_scope.
Open Scope nat_scope.

Section Refine.
Context {T : Type}.
Implicit Types (h : heap T).

Lemma sim_val : forall A B n b (p : prog T A) h (r : result B) (R : heap T -> A -> B -> Prop), sim n b p h r R -> sim n b p h r (fun h' a v => R h' a v /\ r = Ok v).
Proof. intros A B n b p h r R [K [G M]]. split; [exact K|]. split; [exact G|]. destruct (snd (p h)), r; auto. Qed.

Lemma sim_weak : forall A B n b (p : prog T A) h (r : result B) (R : heap T -> A -> B -> Prop), sim n b p h r R -> sim n 0 p h r (fun h' a v => R h' a v /\ good b h').
Proof. intros A B n b p h r R [K [G M]]. split; [exact K|]. split; [split; apply G|]. destruct (snd (p h)), r; auto. Qed.

Lemma sim_each1 : forall X Y A B n b (f : X -> prog T A) (g : Y -> result B) (I : heap T -> list A -> list B -> Prop) h0 xs ys,
  Forall2 (fun x y => forall h us vs, keeps n h0 h -> good b h -> I h us vs -> sim n b (f x) h (g y) (fun h' a v => I h' (us ++ [a]) (vs ++ [v]))) xs ys ->
  forall h us vs, keeps n h0 h -> good b h -> I h us vs ->
  sim n b (each f xs) h (mapM g ys) (fun h' a v => I h' (us ++ a) (vs ++ v)).
Proof.
  intros X Y A B n b f g I h0 xs ys F. induction F as [|x y xs ys H F IH]; intros h us vs K G J; cbn [each mapM].
  - apply sim_ret; [exact G|]. rewrite !app_nil_r. exact J.
  - eapply sim_bind; [apply H; eassumption|]. intros h1 a v K1 G1 J1. cbn beta.
    apply sim_bind with (R := fun h' a' v' => I h' ((us ++ [a]) ++ a') ((vs ++ [v]) ++ v')).
    + apply IH; auto. eapply keeps_trans; eassumption.
    + intros h2 a' v' K2 G2 J2. apply sim_ret; [exact G2|]. rewrite <- !app_assoc in J2. exact J2.
Qed.

(** * Generalized equations *)
Definition shape {A B} (us : list (Z * list A)) (vs : list (Z * list B)) : Prop := Forall2 (fun u v => fst u = fst v /\ List.length (snd u) = List.length (snd v)) us vs.
Definition tally (V : sdict (list vec)) (es : list (equation T)) : sdict (list vec) := fold_left (fun acc e => append_master acc (e_fargs e)) es V.

Section Generalized.
Variables (n : nat) (hN : heap T) (ml : loc) (m : model T).
Hypothesis (Hn : n = List.length hN) (SN : sealed 0 hN) (Em : a_model hN ml = Some m) (Lm : ml < n).

Lemma gen_model : forall h, keeps n hN h -> a_model h ml = Some m.
Proof. intros h K. rewrite <- Em. apply (iso_model _ _ _ _ (iso_keeps hN h SN ltac:(rewrite <- Hn; exact K))). rewrite <- Hn. exact Lm. Qed.

Lemma gen_len : forall h, keeps n hN h -> n <= List.length h.
Proof. intros h [L _]. rewrite Hn. exact L. Qed.

Lemma one_equation : forall A' B' (p : prog T loc) r (k : loc -> loc -> prog T A') (kr : equation T -> result B') R h bs vs mo V,
  keeps n hN h -> sealed 0 h -> chain n bs (List.length h) -> placed m h bs vs -> mst n bs h mo V ->
  sim (List.length h) (List.length h) p h r (fun h' e v => a_eq h' e = Some v /\ sep m h' e /\ List.length h <= e < List.length h') ->
  (forall v, r = Ok v -> fine (e_fargs v)) ->
  (forall h' s d v, keeps n hN h' -> good 0 h' -> chain n (bs ++ [s]) (List.length h') -> placed m h' (bs ++ [s]) (vs ++ [v]) -> master n (bs ++ [s]) h' d (append_master V (e_fargs v)) ->
     sim n 0 (k (fst s) d) h' (kr v) R) ->
  sim n 0 (e <~ p ;; d <~ o_append_master mo e ;; k e d) h (bind r kr) R.
Proof.
  intros A' B' p r k kr R h bs vs mo V K S CH P M Sp F H. pose proof (gen_len h K) as NL.
  apply sim_val in Sp. apply sim_weak in Sp.
  eapply sim_bind with (R := fun h' e v => (((a_eq h' e = Some v /\ sep m h' e /\ List.length h <= e < List.length h') /\ r = Ok v) /\ good (List.length h) h') /\ keeps (List.length h) h h').
  { eapply sim_le; [exact NL|]. eapply sim_post; [exact Sp|]. auto. }
  intros h1 e v _ G1 [[[(E1 & E2 & E3) Er] [_ G2]] K1]. assert (L1 : List.length h <= List.length h1) by apply K1.
  set (s := (e, (List.length h, List.length h1)) : spot).
  assert (CH1 : chain n (bs ++ [s]) (List.length h1)) by (eapply chain_snoc; [exact CH|lia|exact E3]).
  assert (P1 : placed m h1 (bs ++ [s]) (vs ++ [v])).
  { apply Forall2_app.
    - eapply placed_agree; [|exact P]. intros y c Y C. eapply keeps_at; [exact K1|eapply at_lt, C|exact C].
    - constructor; [|constructor]. cbn. split; [apply sealed_block, G2|]. auto. }
  assert (M1 : mst n (bs ++ [s]) h1 mo V).
  { destruct mo as [d|]; [|exact M]. cbn in *. eapply master_keeps; [exact K1|]. apply master_more; [exact M| |exact S]. cbn. intros y Y. lia. }
  destruct (append_master_spec m n bs s vs v h1 mo V) as (h2 & d & E & M2 & F2 & S2); auto; [apply G1|lia|].
  change (fst s) with e in E. eapply sim_det; [exact E|eapply fr_keeps; exact F2|].
  assert (L2 : List.length h1 <= List.length h2) by apply F2.
  change e with (fst s). apply H.
  - eapply keeps_trans; [exact K|]. eapply keeps_trans; [eapply keeps_le; [exact NL|exact K1]|]. eapply fr_keeps, F2.
  - split; exact S2.
  - eapply chain_up; [exact CH1|exact L2].
  - eapply placed_agree; [|exact P1]. intros y c Y C. destruct F2 as [_ F2]. apply F2; auto.
  - exact M2.
Qed.

Lemma equation_fine : forall a v, equation_from m a = Ok v -> fine (e_fargs v).
Proof.
  intros a v E. unfold equation_from in E. destruct (index_term a); [|discriminate]. cbn in E. destruct (initialize_terms m a) as [l|]; [|discriminate]. cbn in E.
  destruct (populate l) eqn:P; [|discriminate]. cbn in E. injection E as <-. cbn. eapply populate_fine; [|exact P]. split; constructor.
Qed.
Lemma green_fine : forall v, green_equation m = Ok v -> fine (e_fargs v).
Proof.
  intros v E. unfold green_equation in E. destruct (index_term _); [|discriminate]. cbn in E. destruct (mapM _ _) as [l|]; [|discriminate]. cbn in E.
  destruct (populate (concat l)) eqn:P; [|discriminate]. cbn in E. injection E as <-. cbn. eapply populate_fine; [|exact P]. split; constructor.
Qed.

Lemma sim_gen_list : forall cs h bs vs mo V, keeps n hN h -> good 0 h -> chain n bs (List.length h) -> placed m h bs vs -> mst n bs h mo V ->
  sim n 0 (o_gen_list ml mo cs) h (mapM (fun c => equation_from m (cfg c)) cs)
    (fun h' r es => exists bs', snd r = map fst bs' /\ List.length (snd r) = List.length es /\ chain n (bs ++ bs') (List.length h') /\ placed m h' (bs ++ bs') (vs ++ es) /\ mst n (bs ++ bs') h' (fst r) (tally V es)).
Proof.
  induction cs as [|c cs IH]; intros h bs vs mo V K G CH P M; cbn [o_gen_list mapM].
  - apply sim_ret; [exact G|]. exists []. rewrite !app_nil_r. cbn. auto.
  - eapply sim_alloc. set (h1 := h ++ [CNd (cfg c)]).
    assert (K1 : keeps (List.length h) h h1) by apply keeps_app. assert (L1 : List.length h <= List.length h1) by apply K1.
    assert (S1 : sealed 0 h1) by (apply sealed0_alloc; [apply G|intros y []]).
    assert (KN : keeps n hN h1) by (eapply keeps_trans; [exact K|apply keeps_app]).
    eapply (one_equation _ _ (o_equation ml (List.length h))).
    + exact KN.
    + exact S1.
    + eapply chain_up; [exact CH|exact L1].
    + eapply placed_agree; [|exact P]. intros y c' Y C. eapply keeps_at; [exact K1|eapply at_lt, C|exact C].
    + destruct mo; [|exact M]. cbn in *. eapply master_keeps; [exact K1|exact M].
    + apply sim_equation; [exact S1|apply gen_model, KN| |apply at_new]. pose proof (gen_len h1 KN). lia.
    + intros v. apply equation_fine.
    + intros h2 s d v K2 G2 CH2 P2 M2. eapply sim_bind; [apply (IH h2 (bs ++ [s]) (vs ++ [v]) (Some d) (append_master V (e_fargs v))); auto|].
      intros h3 r es _ G3 (bs' & A & B & C & D & E). apply sim_ret; [exact G3|]. exists (s :: bs'). cbn [snd fst map]. rewrite A. rewrite A in B.
      rewrite <- !app_assoc in C, E. cbn [app] in C, E. unfold placed in D. rewrite <- !app_assoc in D. cbn [app] in D.
      split; [reflexivity|]. split; [cbn; rewrite B; reflexivity|]. auto.
Qed.

Lemma tally_app : forall V xs ys, tally V (xs ++ ys) = tally (tally V xs) ys.
Proof. intros. apply fold_left_app. Qed.

Lemma sim_gen_blocks : forall space h bs vs mo V, keeps n hN h -> good 0 h -> chain n bs (List.length h) -> placed m h bs vs -> mst n bs h mo V ->
  sim n 0 (o_gen_blocks ml mo space) h (mapM (gen_block m) space)
    (fun h' r bl => exists bs', flat_map snd (snd r) = map fst bs' /\ shape (snd r) bl /\ chain n (bs ++ bs') (List.length h') /\ placed m h' (bs ++ bs') (vs ++ flat_map snd bl) /\
       mst n (bs ++ bs') h' (fst r) (tally V (flat_map snd bl))).
Proof.
  induction space as [|[z cs] space IH]; intros h bs vs mo V K G CH P M; cbn [o_gen_blocks mapM].
  - apply sim_ret; [exact G|]. exists []. rewrite !app_nil_r. cbn. split; [reflexivity|]. split; [constructor|]. auto.
  - unfold gen_block at 1. cbn [fst snd].
    assert (AS : forall k : Z * list (equation T) -> result (list (Z * list (equation T))),
       bind (bind (mapM (fun c => equation_from m (cfg c)) cs) (fun es => Ok (z, es))) k = bind (mapM (fun c => equation_from m (cfg c)) cs) (fun es => k (z, es))) by (intros k; destruct (mapM _ cs); reflexivity).
    rewrite AS. eapply sim_bind with (R := fun h' r es => (exists bs', snd r = map fst bs' /\ List.length (snd r) = List.length es /\ chain n (bs ++ bs') (List.length h') /\ placed m h' (bs ++ bs') (vs ++ es) /\ mst n (bs ++ bs') h' (fst r) (tally V es)) /\ keeps n h h').
    { eapply sim_post; [apply sim_gen_list; eassumption|]. intros h1 a v K1 _ Q. auto. }
    intros h1 r es _ G1 [(b1 & A1 & B1 & C1 & D1 & E1) K1].
    eapply sim_bind; [apply (IH h1 (bs ++ b1) (vs ++ es) (fst r) (tally V es)); auto; eapply keeps_trans; eassumption|].
    intros h2 r2 bl _ G2 (b2 & A2 & B2 & C2 & D2 & E2). apply sim_ret; [exact G2|]. exists (b1 ++ b2). cbn [fst snd flat_map]. rewrite map_app, A1, A2, tally_app.
    unfold placed in *. rewrite <- !app_assoc in C2, D2, E2. rewrite <- ?(app_assoc vs) in D2. split; [reflexivity|]. split; [constructor; [cbn [fst snd]; rewrite A1 in B1; auto|exact B2]|]. auto.
Qed.

(** system.py:169-177 *)
Lemma alloc_vecs : forall (vs : list vec) h, each (fun v => alloc (CVec v)) vs h = (h ++ map CVec vs, Ok (seq (List.length h) (List.length vs))).
Proof.
  induction vs as [|v vs IH]; intros h; cbn [each]; [unfold ret; rewrite app_nil_r; reflexivity|].
  unfold pbind, alloc at 1. rewrite IH, app_length. cbn. rewrite <- app_assoc, Nat.add_1_r. reflexivity.
Qed.

Lemma seq_vecs : forall (vs : list vec) h xs, Forall2 (fun x v => a_vec (h ++ map CVec vs ++ xs) x = Some v) (seq (List.length h) (List.length vs)) vs.
Proof.
  induction vs as [|v vs IH]; intros h xs; cbn; constructor.
  - apply vec_of. apply at_first.
  - specialize (IH (h ++ [CVec v]) xs). rewrite app_length in IH. cbn in IH. rewrite <- app_assoc, Nat.add_1_r in IH. exact IH.
Qed.

Lemma nodup_app : forall A (l l' : list A), NoDup l -> NoDup l' -> (forall x, In x l -> In x l' -> False) -> NoDup (l ++ l').
Proof.
  intros A l l' N N' H. induction N as [|x l X N IH]; [exact N'|]. cbn. constructor.
  - intros I. apply in_app_or in I as [I|I]; [exact (X I)|]. apply (H x); [left; reflexivity|exact I].
  - apply IH. intros y Y. apply H. right. exact Y.
Qed.

Lemma unique_entries : forall ord D V h, Forall2 (entry h) D V -> sealed 0 h -> exists xs D', each (o_unique_entry ord) D h = (h ++ xs, Ok D') /\
  Forall2 (entry (h ++ xs)) D' (determine_unique ord V) /\ NoDup (map snd D') /\ (forall y, In y (map snd D') -> List.length h <= y < List.length (h ++ xs)) /\ sealed 0 (h ++ xs) /\ NoDup (items (h ++ xs) D') /\
  (forall kl ys y, In kl D' -> cell_at (h ++ xs) (snd kl) = Some (CList ys) -> In y ys -> List.length h <= y).
Proof.
  intros ord. induction D as [|kl D IH]; intros V0 h R S; inversion R as [|? kv ? V [A (xs & B & C)] R']; subst.
  - exists [], []. rewrite app_nil_r. split; [reflexivity|]. split; [constructor|]. split; [constructor|]. split; [intros y []|]. split; [exact S|]. split; [constructor|]. intros ? ? ? [].
  - set (us := ord (fst kl) (dedup [] (snd kv))). set (new := map CVec us ++ [CList (seq (List.length h) (List.length us))] : list (cell T)).
    assert (S1 : sealed 0 (h ++ new)).
    { assert (G : good 0 (h ++ new)); [|apply G]. apply good_app; [split; exact S|lia|]. unfold new. intros c I y Y. rewrite app_length, map_length. cbn. apply in_app_or in I as [I|[<-|[]]].
      - apply in_map_iff in I as [u [<- _]]. destruct Y.
      - cbn in Y. apply in_seq in Y. lia. }
    assert (R1 : Forall2 (entry (h ++ new)) D V) by (clear - R'; induction R'; constructor; auto; apply entry_app; assumption).
    destruct (IH V (h ++ new) R1 S1) as (xs2 & D' & E2 & F2 & N2 & L2 & S2 & ND2 & Q2). exists (new ++ xs2), ((fst kl, List.length h + List.length us) :: D'). rewrite app_assoc.
    assert (EL : (fun h => a_list (a_vec h) h) h (snd kl) = Some (snd kv)) by (unfold a_list; rewrite B; apply opt_map_some; exact C).
    assert (E1 : o_unique_entry ord kl h = (h ++ new, Ok (fst kl, List.length h + List.length us))).
    { unfold o_unique_entry. rewrite (run_bind _ _ _ _ _ _ _ (run_load _ _ _ _ _ EL)). fold us. rewrite (run_bind _ _ _ _ _ _ _ (alloc_vecs us h)).
      unfold pbind, alloc, ret. rewrite app_length, map_length, <- app_assoc. reflexivity. }
    assert (CL : cell_at ((h ++ new) ++ xs2) (List.length h + List.length us) = Some (CList (seq (List.length h) (List.length us)))).
    { rewrite <- app_assoc. rewrite at_plus. unfold new. rewrite <- app_assoc. rewrite nth_error_app2 by (rewrite map_length; lia). rewrite map_length, Nat.sub_diag. reflexivity. }
    assert (LN : List.length (h ++ new) = List.length h + List.length us + 1) by (unfold new; rewrite !app_length, map_length; cbn; lia).
    split; [|split; [|split; [|split; [|split; [|split]]]]].
    + cbn [each]. rewrite (run_bind _ _ _ _ _ _ _ E1), (run_bind _ _ _ _ _ _ _ E2). reflexivity.
    + cbn [determine_unique map]. constructor; [|exact F2]. split; [exact A|]. cbn [snd]. exists (seq (List.length h) (List.length us)). split; [exact CL|].
      rewrite <- A. fold us. unfold new. rewrite <- !app_assoc. apply seq_vecs.
    + cbn. constructor; [|exact N2]. intros I. apply L2 in I. lia.
    + cbn. intros y [<-|Y].
      * rewrite app_length. lia.
      * apply L2 in Y. lia.
    + exact S2.
    + unfold items. cbn [flat_map snd]. unfold as_ at 1. rewrite CL. cbn [opt_bind is_list]. fold (items ((h ++ new) ++ xs2) D').
      assert (IL : forall y, In y (items ((h ++ new) ++ xs2) D') -> List.length (h ++ new) <= y).
      { intros y Y. unfold items in Y. apply in_flat_map in Y as [kl' [I Y]]. unfold as_ in Y. destruct (cell_at ((h ++ new) ++ xs2) (snd kl')) as [[]|] eqn:C'; cbn in Y; try contradiction. eapply Q2; eassumption. }
      apply nodup_app; [apply seq_NoDup|exact ND2|]. intros y Y1 Y2. apply in_seq in Y1. apply IL in Y2. lia.
    + intros kl' ys y [<-|I] C' Y.
      * cbn [snd] in C'. rewrite CL in C'. injection C' as <-. apply in_seq in Y. lia.
      * specialize (Q2 kl' ys y I C' Y). lia.
Qed.

Lemma unique_spec : forall ord bs h d V, sealed 0 h -> n <= List.length h -> chain n bs (List.length h) -> master n bs h d V ->
  exists h', o_unique ord d h = (h', Ok tt) /\ master n bs h' d (determine_unique ord V) /\ fr n bs h h' /\ sealed 0 h' /\ NoDup (dr h' d) /\ (forall y, In y (dr h' d) -> List.length h <= y).
Proof.
  intros ord bs h d V S L CH (D & E & ND & R & O). destruct (unique_entries ord D V h R S) as (xs & D' & E1 & R1 & N1 & L1 & S1 & ND1 & Q1).
  pose proof (at_lt _ _ _ E) as Ld. assert (E2 : cell_at (h ++ xs) d = Some (CDict D)) by (rewrite at_old by exact Ld; exact E).
  assert (ED : as_ is_dict h d = Some D) by (unfold as_; rewrite E; reflexivity). destruct (O d (or_introl eq_refl)) as [O1 O2].
  exists (setn (h ++ xs) d (CDict D')).
  assert (DR : dr (setn (h ++ xs) d (CDict D')) d = items (h ++ xs) D').
  { unfold dr, as_. rewrite at_set by (eapply at_lt, E2). cbn [opt_bind is_dict]. unfold items.
    assert (NE : forall kl, In kl D' -> snd kl <> d) by (intros kl I Z; assert (H : In d (map snd D')) by (rewrite <- Z; apply in_map, I); apply L1 in H; lia).
    match goal with |- context [setn _ d ?c] => generalize c end. intros cd. clear - NE. induction D' as [|kl D' IH]; [reflexivity|]. cbn [flat_map].
    unfold as_ at 1. rewrite at_other by (apply NE; left; reflexivity). f_equal. apply IH. intros k I. apply NE. right. exact I. }
  split; [|split; [|split; [|split; [|split]]]].
  - unfold o_unique. rewrite (run_bind _ _ _ _ _ _ _ (run_load _ _ _ _ _ ED)), (run_bind _ _ _ _ _ _ _ E1). reflexivity.
  - exists D'. split; [apply at_set; eapply at_lt, E2|]. split; [exact N1|]. split.
    + assert (ND' : ~ In d (map snd D')) by (intros I; apply L1 in I; lia). assert (NV : forall u, cell_at (h ++ xs) d <> Some (CVec u)) by (intros u; congruence).
      match goal with |- context [setn _ d ?c] => generalize c end. intros cd. clear - R1 ND' NV. revert ND'. induction R1 as [|kl kv D0 V0 X R IH]; intros N; constructor.
      * apply entry_other; [intros Z; apply N; left; exact Z|exact NV|exact X].
      * apply IH. intros Z. apply N. right. exact Z.
    + intros y [->|Y]; [auto|]. apply L1 in Y. split; [lia|]. intros B. apply (inblk_bounds _ _ _ _ CH) in B. lia.
  - eapply fr_trans; [apply fr_app|]. apply (fr_set n bs (h ++ xs) d (CDict D)); auto. discriminate.
  - apply sealed0_set; [exact S1|]. cbn [refs]. intros y Y. apply L1 in Y. lia.
  - rewrite DR. exact ND1.
  - rewrite DR. intros y Y. unfold items in Y. apply in_flat_map in Y as [kl [I Y]]. unfold as_ in Y. destruct (cell_at (h ++ xs) (snd kl)) as [[]|] eqn:C; cbn in Y; try contradiction. eapply Q1; eassumption.
Qed.

(** system.py:215-230 *)
Lemma shape_app : forall A B (us us' : list (Z * list A)) (vs vs' : list (Z * list B)), shape us vs -> shape us' vs' -> shape (us ++ us') (vs ++ vs').
Proof. intros. apply Forall2_app; assumption. Qed.
Lemma shape_sum : forall A B (us : list (Z * list A)) (vs : list (Z * list B)), shape us vs ->
  map (fun kv => Z.of_nat (List.length (snd kv))) us = map (fun kv => Z.of_nat (List.length (snd kv))) vs.
Proof. intros A B us vs F. induction F as [|u v us vs [_ L] F IH]; [reflexivity|]. cbn. rewrite L, IH. reflexivity. Qed.

Lemma sim_generalized : forall ord space, sim n 0 (o_generalized ord ml space) hN (generalized ord m space)
  (fun h' r v => exists bs k, flat_map snd (fst r) = map fst bs /\ shape (fst r) (fst v) /\ chain n bs k /\ k <= List.length h' /\ placed m h' bs (flat_map snd (fst v)) /\
     master n bs h' (snd r) (snd v) /\ NoDup (dr h' (snd r)) /\ (forall y, In y (dr h' (snd r)) -> k <= y)).
Proof.
  intros ord space. unfold o_generalized, generalized. assert (G0 : good 0 hN) by (split; exact SN).
  eapply sim_bind; [apply (sim_gen_blocks space hN [] [] None []); [apply keeps_refl|exact G0|cbn; lia|constructor|reflexivity]|].
  intros h1 x bl K1 G1 (bs & A & B & C & D & E). cbn [app] in C, D, E.
  eapply one_equation with (bs := bs) (vs := flat_map snd bl) (V := tally [] (flat_map snd bl)).
  - exact K1.
  - apply G1.
  - exact C.
  - exact D.
  - exact E.
  - apply sim_green_equation; [apply G1|apply gen_model, K1|]. pose proof (gen_len h1 K1). lia.
  - intros v. apply green_fine.
  - intros h2 s d g K2 G2 C2 P2 M2. cbn zeta.
    destruct (unique_spec ord (bs ++ [s]) h2 d _ (proj1 G2) (gen_len h2 K2) C2 M2) as (h3 & U & M3 & F3 & S3 & ND3 & Q3).
    eapply sim_det; [exact U|eapply fr_keeps; exact F3|].
    assert (K3 : keeps n hN h3) by (eapply keeps_trans; [exact K2|eapply fr_keeps, F3]).
    eapply sim_load; [apply gen_model, K3|].
    assert (SH : shape (snd x ++ [(0%Z, [fst s])]) (bl ++ [(0%Z, [g])])) by (apply shape_app; [exact B|constructor; [cbn; auto|constructor]]).
    rewrite (shape_sum _ _ _ _ SH). apply sim_pure; [split; exact S3|]. intros u _. apply sim_ret; [split; exact S3|].
    exists (bs ++ [s]), (List.length h2). cbn [fst snd].
    assert (FM : flat_map snd (bl ++ [(0%Z, [g])]) = flat_map snd bl ++ [g]) by (rewrite flat_map_app; reflexivity). 
    split; [rewrite flat_map_app, map_app, A; reflexivity|]. split; [exact SH|]. split; [exact C2|]. split; [apply F3|]. split; [|split; [|split; [exact ND3|exact Q3]]].
    + rewrite FM. eapply placed_agree; [|exact P2]. intros y c Y Cy. destruct F3 as [_ F3]. apply F3; auto.
    + rewrite FM. change (fold_left (fun acc e => append_master acc (e_fargs e)) (flat_map snd bl ++ [g]) []) with (tally [] (flat_map snd bl ++ [g])). rewrite tally_app. exact M3.
Qed.
End Generalized.

(** * Full equations *)
Lemma eq_parts : forall h e v, a_eq h e = Some v -> exists g i m tl d ts, cell_at h e = Some (CEq g i m tl d) /\ a_term h i = Some (e_index v) /\
  cell_at h tl = Some (CList ts) /\ Forall2 (fun x t => a_term h x = Some t) ts (e_terms v).
Proof.
  intros h e v E. unfold a_eq in E. destruct (cell_at h e) as [[]|] eqn:C; try discriminate. destruct (a_term h index) as [x|] eqn:A; [|discriminate]. cbn [opt_bind] in E.
  unfold a_list in E. destruct (cell_at h terms) as [[]|] eqn:D; try discriminate. destruct (opt_map (a_term h) l) as [us|] eqn:F; [|discriminate]. cbn [opt_bind] in E.
  destruct (a_dict h fargs) as [dd|]; [|discriminate]. cbn [opt_bind] in E. injection E as <-. repeat eexists; eauto. cbn. apply opt_map_some, F.
Qed.

Lemma sget_entry : forall h k D V, Forall2 (entry h) D V -> match sget k D with
  | None => sget k V = None
  | Some l => exists xs ds, sget k V = Some ds /\ cell_at h l = Some (CList xs) /\ Forall2 (fun x v => a_vec h x = Some v) xs ds /\ In (k, l) D end.
Proof.
  intros h k D V F. induction F as [|[k1 l] [k2 ds] D V [A (xs & B & C)] F IH]; [reflexivity|]. cbn in A, B, C. subst k2. cbn [sget fst snd].
  destruct (String.eqb k1 k) eqn:E.
  - apply String.eqb_eq in E as ->. exists xs, ds. split; [reflexivity|]. split; [exact B|]. split; [exact C|]. left. reflexivity.
  - destruct (sget k D); [|exact IH]. destruct IH as (ys & es & I1 & I2 & I3 & I4). exists ys, es. split; [exact I1|]. split; [exact I2|]. split; [exact I3|]. right. exact I4.
Qed.

Section Full.
Variables (mo : model T) (hG : heap T) (N : nat) (d : loc) (fl : sdict (list vec)) (D : sdict loc).
Hypothesis (HN : N = List.length hG) (SG : sealed 0 hG) (ED : cell_at hG d = Some (CDict D)) (RD : Forall2 (entry hG) D fl).

(** The copy [w] is that for the array [x] of the list for its own cloud. *)
Definition chosen (D : sdict loc) h (x : loc) (w : equation T) : Prop :=
  exists l xs dv, In (phonon_config_id (cfg (t_cfg (e_index w))), l) D /\ cell_at h l = Some (CList xs) /\ In x xs /\ a_vec h x = Some dv /\ t_f (e_index w) = Some dv.
Definition filled h (bs : list spot) (ws : list (equation T)) : Prop :=
  Forall2 (fun s w => (exists x, chosen D hG x w /\ within [x] (fst (snd s)) (snd (snd s)) h) /\ a_eq h (fst s) = Some w /\ a_owner h (fst s) = Some mo) bs ws.
Definition made h (es : list loc) (ws : list (equation T)) : Prop := exists bs, es = map fst bs /\ chain N bs (List.length h) /\ filled h bs ws.

Lemma full_iso : forall h, keeps N hG h -> iso (fun x => x < N) (fun x => x) hG h.
Proof. intros h K. rewrite HN in *. apply iso_keeps; assumption. Qed.

Lemma init_full_index : forall (v : equation T) dv w, init_full v dv = Ok w -> t_cfg (e_index w) = t_cfg (e_index v) /\ t_f (e_index w) = Some dv.
Proof.
  intros v dv w E. unfold init_full, set_f_arg in E. destruct (t_h (e_index v)); [discriminate|]. unfold checked, guard in E. destruct (Nat.eqb _ _); [|discriminate]. cbn in E. destruct (mapM _ _); [|discriminate].
  cbn in E. injection E as <-. cbn. auto.
Qed.

Lemma one_copy : forall e v x dv l xs, e < N -> a_eq hG e = Some v -> sep mo hG e -> In (phonon_config_id (cfg (t_cfg (e_index v))), l) D -> cell_at hG l = Some (CList xs) -> In x xs -> a_vec hG x = Some dv ->
  forall h us ws, keeps N hG h -> good 0 h -> made h us ws ->
  sim N 0 (e' <~ deepcopy e ;; _ <~ o_init_full e' x ;; ret e') h (init_full v dv) (fun h' a w => made h' (us ++ [a]) (ws ++ [w])).
Proof.
  intros e v x dv l xs Le Ev Se Q1 Q2 Q3 Ex h us ws K G (bs & -> & CH & FL). pose proof (full_iso h K) as I0. assert (LN : N <= List.length h) by (rewrite HN; apply K).
  assert (Lx : x < N) by (rewrite HN; unfold a_vec in Ex; destruct (cell_at hG x) eqn:C; [eapply at_lt, C|discriminate]).
  destruct (deepcopy_spec h e (proj1 G) ltac:(lia)) as (h1 & e' & P & p & DC & C & SE). pose proof (cp_iso _ _ _ _ _ _ C) as I1. pose proof (cp_root _ _ _ _ _ _ C) as R1.
  pose proof (cp_below _ _ _ _ _ _ C (List.length h)) as K1. assert (L1 : List.length h <= List.length h1) by apply K1.
  eapply sim_det; [exact DC|apply (cp_below _ _ _ _ _ _ C)|].
  assert (Le' : List.length h <= e' < List.length h1) by (rewrite (cp_loc _ _ _ _ _ _ C); apply (cp_in _ _ _ _ _ _ C), R1).
  assert (S1 : sealed 0 h1) by (apply SE; [lia|apply G]).
  assert (E1 : a_eq h1 e' = Some v) by (rewrite (cp_loc _ _ _ _ _ _ C), (iso_eq _ _ _ _ I1 e R1), (iso_eq _ _ _ _ I0 e Le); exact Ev).
  assert (Sp : sep mo h1 e').
  { rewrite (cp_loc _ _ _ _ _ _ C). apply (iso_sep _ _ _ _ _ _ I1 (cp_inj _ _ _ _ _ _ C) R1). apply (iso_sep _ _ _ _ _ _ I0); auto. }
  assert (Lxh : x < List.length h) by lia.
  assert (X1 : a_vec h1 x = Some dv).
  { rewrite (iso_vec _ _ _ _ (iso_keeps h h1 (proj1 G) K1) x Lxh), (iso_vec _ _ _ _ I0 x Lx). exact Ex. }
  assert (BI : init_full v dv = bind (init_full v dv) (fun w => Ok w)) by (destruct (init_full v dv); reflexivity). rewrite BI.
  eapply sim_bind with (R := fun h' (_ : unit) v' => ((a_eq h' e' = Some v' /\ a_owner h' e' = Some mo /\ List.length h' = List.length h1 /\ within [x] (List.length h) (List.length h1) h') /\ init_full v dv = Ok v') /\ keeps (List.length h) h1 h').
  { eapply sim_le; [exact LN|]. eapply sim_post; [apply sim_val; apply (sim_init_full mo (List.length h) h1 e' v x dv S1 (cp_block _ _ _ _ _ _ C) Le' E1 Sp X1 ltac:(lia))|]. auto. }
  intros h2 [] w _ G2 [[(A1 & A0 & A2 & A3) AI] K2]. apply sim_ret; [exact G2|].
  exists (bs ++ [(e', (List.length h, List.length h1))]). split; [rewrite map_app; reflexivity|]. split.
  - rewrite A2. eapply chain_snoc; [exact CH|lia|exact Le'].
  - assert (K3 : keeps (List.length h) h h2) by (eapply keeps_trans; eassumption). apply Forall2_app; [|constructor; [|constructor]].
    + pose proof (iso_keeps h h2 (proj1 G) K3) as I2. assert (BS : forall s, In s bs -> fst (snd s) <= fst s < snd (snd s) /\ snd (snd s) <= List.length h) by (intros s I; destruct (chain_in _ _ _ _ CH I) as (? & ? & ?); auto).
      clear - FL BS K3 I2. induction FL as [|s w bs ws (W & E & O) FL IH]; constructor.
      * destruct (BS s (or_introl eq_refl)) as [B1 B2]. split.
        -- destruct W as (x0 & X0 & W). exists x0. split; [exact X0|]. intros y Y. destruct (W y Y) as [c [Cy R]]. exists c. split; [|exact R]. eapply keeps_at; [exact K3|lia|exact Cy].
        -- split; [rewrite <- E; apply (iso_eq _ _ _ _ I2); lia|]. rewrite <- O. apply (iso_owner _ _ _ _ I2). lia.
      * apply IH. intros s' I. apply BS. right. exact I.
    + cbn [fst snd]. split; [|split; [exact A1|exact A0]]. exists x. split; [|exact A3]. destruct (init_full_index v dv w AI) as [J1 J2]. exists l, xs, dv. rewrite J1. auto.
Qed.

Lemma copies : forall e v l xs zs ds, e < N -> a_eq hG e = Some v -> sep mo hG e -> In (phonon_config_id (cfg (t_cfg (e_index v))), l) D -> cell_at hG l = Some (CList xs) -> incl zs xs ->
  Forall2 (fun x u => a_vec hG x = Some u) zs ds ->
  Forall2 (fun x u => forall h us ws, keeps N hG h -> good 0 h -> made h us ws ->
    sim N 0 (e' <~ deepcopy e ;; _ <~ o_init_full e' x ;; ret e') h (init_full v u) (fun h' a w => made h' (us ++ [a]) (ws ++ [w]))) zs ds.
Proof.
  intros e v l xs zs ds Le Ev Se Q1 Q2 Q3 F. induction F as [|x u zs ds X F IH]; constructor.
  - apply one_copy with (l := l) (xs := xs); auto. apply Q3. left. reflexivity.
  - apply IH. intros y Y. apply Q3. right. exact Y.
Qed.

Lemma sim_expand : forall e v, e < N -> a_eq hG e = Some v -> sep mo hG e ->
  forall h us ws, keeps N hG h -> good 0 h -> made h us ws -> sim N 0 (o_expand d e) h (expand fl v) (fun h' a w => made h' (us ++ a) (ws ++ w)).
Proof.
  intros e v Le Ev Se h us ws K G M. pose proof (full_iso h K) as I0.
  destruct (eq_parts hG e v Ev) as (g & i & m & tl & fd & ts & C1 & C2 & _). assert (AT : forall y c, cell_at hG y = Some c -> cell_at h y = Some c).
  { intros y c C. eapply keeps_at; [exact K|rewrite HN; eapply at_lt, C|exact C]. }
  unfold o_expand. eapply sim_load; [unfold as_; rewrite (AT _ _ C1); reflexivity|]. cbn beta iota.
  assert (Li : i < N) by (rewrite HN; apply (SG e _ ltac:(lia) C1); cbn; auto).
  eapply sim_load; [rewrite (iso_term _ _ _ _ I0 i Li); exact C2|]. eapply sim_load; [unfold as_; rewrite (AT _ _ ED); reflexivity|].
  unfold expand. pose proof (sget_entry hG (phonon_config_id (cfg (t_cfg (e_index v)))) D fl RD) as SGE. destruct (sget _ D) as [l|].
  - destruct SGE as (xs & ds & -> & Cl & F & ID). eapply sim_load; [unfold as_; rewrite (AT _ _ Cl); reflexivity|].
    eapply (sim_each1 _ _ _ _ N 0 _ (init_full v) made hG xs ds); auto.
    apply (copies e v l xs xs ds); auto. apply incl_refl.
  - rewrite SGE. apply sim_err, G.
Qed.

Definition gens (us : list (Z * list loc)) (vs : list (Z * list (equation T))) : Prop :=
  Forall2 (fun u v => fst u = fst v /\ Forall2 (fun e w => e < N /\ a_eq hG e = Some w /\ sep mo hG e) (snd u) (snd v)) us vs.

Definition made2 h (us : list (Z * list loc)) (ws : list (Z * list (equation T))) : Prop := made h (flat_map snd us) (flat_map snd ws) /\ shape us ws.

Lemma made_len : forall h us ws, made h us ws -> List.length us = List.length ws.
Proof. intros h us ws (bs & -> & _ & F). rewrite map_length. clear - F. induction F; cbn; auto. Qed.

Lemma sim_full_equations : forall gen gv, gens gen gv -> sim N 0 (o_full_equations d gen) hG (full_equations fl gv) (fun h' a w => made2 h' a w).
Proof.
  intros gen gv F. unfold o_full_equations, full_equations. assert (G0 : good 0 hG) by (split; exact SG).
  assert (M0 : made2 hG [] []).
  { split; [|constructor]. exists []. split; [reflexivity|]. split; [cbn; rewrite HN; auto|constructor]. }
  eapply sim_post; [eapply (sim_each1 _ _ _ _ N 0 _ _ made2 hG gen gv); [|apply keeps_refl|exact G0|exact M0]|cbn; auto].
  clear - F HN SG ED RD. induction F as [|[z es] [z' ws] gen gv [A B] F IH]; constructor; [|exact IH]. cbn [fst snd] in *. subst z'.
  intros h us vs K G [M SH]. eapply sim_bind; [eapply (sim_each _ _ _ _ N 0 (o_expand d) (expand fl) made hG es ws); [|exact K|exact G|exact M]|].
  - clear - B HN SG ED RD. induction B as [|e w es ws (A1 & A2 & A3) B IH]; constructor; [|exact IH]. apply sim_expand; auto.
  - intros h1 a w K1 G1 M1. apply sim_ret; [exact G1|]. split; [rewrite !flat_map_app; cbn [flat_map snd]; rewrite !app_nil_r; exact M1|].
    apply shape_app; [exact SH|]. constructor; [|constructor]. cbn [fst snd]. split; [reflexivity|].
    apply made_len in M. apply made_len in M1. rewrite !app_length in M1. lia.
Qed.
End Full.

(** system.py:262-281 *)
Lemma final_run : forall h es ws, Forall2 (fun e w => a_eq h e = Some w) es ws ->
  each (fun e => x <~ load (as_ is_eq) e ;; let '(i, _, tl, _) := x in k <~ o_tid i ;; ts <~ load (as_ is_list) tl ;; ks <~ each o_tid ts ;; ret (k, ks)) es h
  = (h, Ok (map (fun w => (tid (e_index w), map tid (e_terms w))) ws)).
Proof.
  intros h es ws F. induction F as [|e w es ws E F IH]; [reflexivity|]. cbn [each map].
  destruct (eq_parts h e w E) as (g & i & m & tl & fd & ts & C1 & C2 & C3 & C4).
  assert (TS : each o_tid ts h = (h, Ok (map tid (e_terms w)))).
  { clear - C4. induction C4 as [|x t ts us X C4 IH]; [reflexivity|]. cbn [each map]. unfold o_tid at 1.
    unfold pbind, load, ret at 1. rewrite X, IH. reflexivity. }
  unfold pbind at 1. unfold pbind at 1. unfold load at 1. unfold as_ at 1. rewrite C1. cbn [opt_bind is_eq]. unfold pbind at 1. unfold o_tid at 1. unfold pbind at 1. unfold load at 1. rewrite C2.
  cbn [ret]. unfold pbind at 1. unfold load at 1. unfold as_ at 1. rewrite C3. cbn [opt_bind is_list]. unfold pbind at 1. rewrite TS. cbn [ret]. unfold pbind at 1. rewrite IH. reflexivity.
Qed.

Lemma sim_final : forall n h eqs (ev : list (Z * list (equation T))), good 0 h -> Forall2 (fun e w => a_eq h e = Some w) (flat_map snd eqs) (flat_map snd ev) ->
  sim n 0 (o_final_checks eqs) h (final_checks ev) (fun h' _ _ => h' = h).
Proof.
  intros n h eqs ev G F. unfold o_final_checks, final_checks. eapply sim_det; [apply (final_run _ _ _ F)|apply keeps_refl|].
  assert (A : forall ws : list (equation T), map fst (map (fun w => (tid (e_index w), map tid (e_terms w))) ws) = index_ids ws) by (intros ws; rewrite map_map; reflexivity).
  assert (B : forall ws : list (equation T), flat_map snd (map (fun w => (tid (e_index w), map tid (e_terms w))) ws) = rhs_ids ws).
  { induction ws as [|w ws IH]; [reflexivity|]. unfold rhs_ids in *. cbn [map flat_map snd]. f_equal. exact IH. }
  rewrite A, B. eapply sim_post; [apply sim_lift, G|]. intros h' a v _ _ [-> _]. reflexivity.
Qed.

(** * A whole System *)
Lemma shape_eqs : forall h us ws, shape us ws -> Forall2 (fun e w => a_eq h e = Some w) (flat_map snd us) (flat_map snd ws) -> a_eqs h us = Some ws.
Proof.
  intros h us ws S. unfold a_eqs. induction S as [|[z es] [z' vs] us ws [A B] S IH]; intros F; [reflexivity|]. cbn [fst snd flat_map opt_map] in *. subst z'.
  assert (SP : Forall2 (fun e w => a_eq h e = Some w) es vs /\ Forall2 (fun e w => a_eq h e = Some w) (flat_map snd us) (flat_map snd ws)).
  { clear - F B. revert vs B F. induction es as [|e es IH]; intros [|v vs] L F; try discriminate; cbn in *; [split; [constructor|exact F]|].
    inversion F; subst. destruct (IH vs ltac:(lia) H4). split; [constructor|]; auto. }
  destruct SP as [F1 F2]. apply opt_map_some in F1. rewrite F1. cbn [opt_bind]. rewrite (IH F2). reflexivity.
Qed.

Lemma shape_gens : forall mo hG N us ws, shape us ws -> Forall2 (fun e w => e < N /\ a_eq hG e = Some w /\ sep mo hG e) (flat_map snd us) (flat_map snd ws) -> gens mo hG N us ws.
Proof.
  intros mo hG N us ws S. induction S as [|[z es] [z' vs] us ws [A B] S IH]; intros F; [constructor|]. cbn [fst snd flat_map] in *. subst z'.
  assert (SP : Forall2 (fun e w => e < N /\ a_eq hG e = Some w /\ sep mo hG e) es vs /\ Forall2 (fun e w => e < N /\ a_eq hG e = Some w /\ sep mo hG e) (flat_map snd us) (flat_map snd ws)).
  { clear - F B. revert vs B F. induction es as [|e es IH]; intros [|v vs] L F; try discriminate; cbn in *; [split; [constructor|exact F]|].
    inversion F; subst. destruct (IH vs ltac:(lia) H4). split; [constructor|]; auto. }
  destruct SP as [F1 F2]. constructor; [cbn; auto|]. apply IH, F2.
Qed.

(** The finished System: its Model in [lo, n), its generalized equations in
    blocks of [n, k), its full equations in blocks of [N, end), its dictionary
    in between. *)
Definition finished (lo : nat) h (s : osystem) (v : system T) : Prop :=
  exists n bs k N bs' D,
    a_model h (os_model s) = Some (s_model v) /\ a_eqs h (os_gen s) = Some (s_gen v) /\ a_dict h (os_fargs s) = Some (s_fargs v) /\ a_eqs h (os_eqs s) = Some (s_eqs v) /\
    Forall (fun e => a_owner h e = Some (s_model v)) (flat_map snd (os_gen s) ++ flat_map snd (os_eqs s)) /\ lo <= n /\ k <= N /\ lo <= os_model s < n /\ block lo n h /\
    flat_map snd (os_gen s) = map fst bs /\ chain n bs k /\ Forall (fun p => block (fst (snd p)) (snd (snd p)) h) bs /\
    flat_map snd (os_eqs s) = map fst bs' /\ chain N bs' (List.length h) /\ Forall2 (fun p w => exists x, chosen D h x w /\ within [x] (fst (snd p)) (snd (snd p)) h) bs' (flat_map snd (s_eqs v)) /\ NoDup (dr h (os_fargs s)) /\
    cell_at h (os_fargs s) = Some (CDict D) /\ (forall y, y = os_fargs s \/ In y (map snd D) -> n <= y < N /\ ~ inblk bs y) /\
    (forall y, In y (dr h (os_fargs s)) -> k <= y < N /\ exists u, cell_at h y = Some (CVec u)).

Lemma entries_abs : forall h d D V, cell_at h d = Some (CDict D) -> Forall2 (entry h) D V -> a_dict h d = Some V.
Proof.
  intros h d D V E F. unfold a_dict. rewrite E. apply opt_map_some. clear E. induction F as [|[k l] [k' v] D V [A (xs & B & C)] F IH]; constructor; [|exact IH].
  cbn [fst snd] in *. subst k'. unfold a_list. rewrite B. apply opt_map_some in C. rewrite C. reflexivity.
Qed.

Lemma items_cells : forall h D V y, Forall2 (entry h) D V -> In y (items h D) -> exists u, cell_at h y = Some (CVec u).
Proof.
  intros h D V y F. unfold items. induction F as [|kl kv D V [A (xs & B & C)] F IH]; cbn [flat_map]; [intros []|]. intros I. apply in_app_or in I as [I|I]; [|exact (IH I)].
  unfold as_ in I. rewrite B in I. cbn in I. clear - C I. induction C as [|x v xs vs X C IH]; [destruct I|]. destruct I as [->|I]; [|exact (IH I)].
  unfold a_vec in X. destruct (cell_at h y) as [[]|]; try discriminate. eauto.
Qed.

Lemma iso_dr_id : forall (P : loc -> Prop) h h' d, iso P (fun x => x) h h' -> P d -> dr h' d = dr h d.
Proof. intros P h h' d I Pd. destruct (iso_dr P (fun x => x) h h' I d Pd) as [E _]. rewrite map_id in E. exact E. Qed.

Lemma sim_prime : forall ord ml m h, sealed 0 h -> a_model h ml = Some m ->
  sim (List.length h) 0 (o_prime ord ml) h (prime_system ord m) (fun h' s v => finished (List.length h) h' s v).
Proof.
  intros ord ml m h S Em. assert (Lm : ml < List.length h) by (unfold a_model in Em; destruct (cell_at h ml) eqn:C; [eapply at_lt, C|discriminate]).
  unfold o_prime, prime_system. destruct (deepcopy_spec h ml S Lm) as (h0 & m' & P & p & DC & C & SE). pose proof (cp_below _ _ _ _ _ _ C (List.length h)) as K0.
  eapply sim_det; [exact DC|exact K0|]. assert (L0 : List.length h <= List.length h0) by apply K0.
  assert (Lm' : List.length h <= m' < List.length h0) by (rewrite (cp_loc _ _ _ _ _ _ C); apply (cp_in _ _ _ _ _ _ C), (cp_root _ _ _ _ _ _ C)).
  assert (Em' : a_model h0 m' = Some m) by (rewrite (cp_loc _ _ _ _ _ _ C), (iso_model _ _ _ _ (cp_iso _ _ _ _ _ _ C) ml (cp_root _ _ _ _ _ _ C)); exact Em).
  assert (S0 : sealed 0 h0) by (apply SE; [lia|exact S]). eapply sim_load; [exact Em'|]. apply sim_pure; [split; exact S0|]. intros space _.
  set (n := List.length h0) in *.
  eapply sim_bind with (R := fun h1 r v => (exists bs k, flat_map snd (fst r) = map fst bs /\ shape (fst r) (fst v) /\ chain n bs k /\ k <= List.length h1 /\ placed m h1 bs (flat_map snd (fst v)) /\
     master n bs h1 (snd r) (snd v) /\ NoDup (dr h1 (snd r)) /\ (forall y, In y (dr h1 (snd r)) -> k <= y)) /\ keeps n h0 h1).
  { eapply sim_le; [exact L0|]. eapply sim_post; [apply (sim_generalized n h0 m' m eq_refl S0 Em' ltac:(lia))|]. auto. }
  intros h1 [gen d] [gv fl] _ G1 [(bs & k & A1 & A2 & A3 & A4 & A5 & (D & A6 & _ & A7 & A8) & ND & A9) K1]. cbn [fst snd] in *.
  set (N := List.length h1) in *. assert (LN : n <= N) by apply K1. pose proof (proj1 G1) as S1.
  assert (PG : Forall2 (fun e w => e < N /\ a_eq h1 e = Some w /\ sep m h1 e) (flat_map snd gen) (flat_map snd gv)).
  { rewrite A1. assert (BS : forall s, In s bs -> fst s < N) by (intros s I; destruct (chain_in _ _ _ _ A3 I) as (? & ? & ?); lia). clear - A5 BS.
    induction A5 as [|s v bs vs (B & L & E & Sp) F IH]; constructor; [split; [apply BS; left; reflexivity|auto]|]. apply IH. intros s' I. apply BS. right. exact I. }
  eapply sim_bind with (R := fun h2 a w => made2 m h1 N D h2 a w /\ keeps N h1 h2).
  { eapply sim_le; [|eapply sim_post; [apply (sim_full_equations m h1 N d fl D eq_refl S1 A6 A7 gen gv), shape_gens; [exact A2|exact PG]|auto]]. lia. }
  intros h2 eqs ev _ G2 [[(bs' & B1 & B2 & B3) B4] K2].
  assert (FE : Forall2 (fun e w => a_eq h2 e = Some w) (flat_map snd eqs) (flat_map snd ev)).
  { rewrite B1. clear - B3. induction B3 as [|s w bs ws (_ & E & _) F IH]; constructor; auto. }
  eapply sim_bind; [apply (sim_final _ h2 eqs ev G2 FE)|]. intros h3 [] u _ _ ->. apply sim_ret; [exact G2|].
  pose proof (iso_keeps h1 h2 S1 K2) as I2. pose proof (iso_keeps h0 h1 S0 K1) as I1.
  assert (Ld : d < N) by (eapply at_lt, A6).
  assert (AT : forall y c, cell_at h1 y = Some c -> cell_at h2 y = Some c) by (intros y c Cy; eapply keeps_at; [exact K2|eapply at_lt, Cy|exact Cy]).
  assert (DR : dr h2 d = dr h1 d) by (apply (iso_dr_id _ _ _ _ I2 Ld)).
  assert (LD : forall y, In y (map snd D) -> y < N) by (intros y Y; apply (S1 d _ ltac:(lia) A6 y); exact Y).
  exists n, bs, k, N, bs', D. cbn [os_model os_gen os_fargs os_eqs s_model s_gen s_fargs s_eqs]. repeat match goal with |- _ /\ _ => split end.
  - assert (M1 : m' < List.length h1) by lia. rewrite (iso_model _ _ _ _ I2 m' M1), (iso_model _ _ _ _ I1 m' (proj2 Lm')). exact Em'.
  - apply shape_eqs; [exact A2|]. clear - PG I2. induction PG as [|e w es ws (L & E & _) F IH]; constructor; auto. rewrite (iso_eq _ _ _ _ I2 e L). exact E.
  - rewrite (iso_dict _ _ _ _ I2 d Ld). eapply entries_abs; eassumption.
  - apply shape_eqs; assumption.
  - apply Forall_app. split.
    + clear - PG I2. induction PG as [|e w es ws (L & E & Sp) F IH]; constructor; auto. rewrite (iso_owner _ _ _ _ I2 e L). apply Sp.
    + rewrite B1. clear - B3. induction B3 as [|s w bs ws (_ & _ & O) F IH]; constructor; auto.
  - exact L0.
  - exact A4.
  - apply Lm'.
  - apply Lm'.
  - eapply block_agree; [apply (cp_block _ _ _ _ _ _ C)|]. intros y Y. rewrite (proj2 K2 y) by lia. apply (proj2 K1); lia.
  - exact A1.
  - exact A3.
  - assert (BS : forall s, In s bs -> snd (snd s) <= N) by (intros s I; destruct (chain_in _ _ _ _ A3 I) as (? & ? & ?); lia). clear - A5 BS AT.
    induction A5 as [|s v bs vs (B & L & E & Sp) F IH]; constructor.
    + intros y Y. destruct (B y Y) as [c [Cy R]]. exists c. auto.
    + apply IH. intros s' I. apply BS. right. exact I.
  - exact B1.
  - exact B2.
  - assert (CHO : forall x w, chosen D h1 x w -> chosen D h2 x w).
    { intros x w (l & xs & dv & Q1 & Q2 & Q3 & Q4 & Q5). exists l, xs, dv. split; [exact Q1|]. split; [apply AT, Q2|]. split; [exact Q3|]. split; [|exact Q5].
      unfold a_vec in *. destruct (cell_at h1 x) as [c|] eqn:Cx; [|discriminate]. rewrite (AT _ _ Cx). exact Q4. }
    clear - B3 CHO. induction B3 as [|s w bs ws ((x & X & W) & _) F IH]; constructor; eauto.
  - rewrite DR. exact ND.
  - apply AT, A6.
  - intros y Y. destruct (A8 y Y) as [Y1 Y2]. split; [split; [exact Y1|]|exact Y2]. destruct Y as [->|Y]; auto.
  - rewrite DR. intros y Y. unfold dr, as_ in Y. rewrite A6 in Y. cbn [opt_bind is_dict] in Y. destruct (items_cells _ _ _ _ A7 Y) as [w Cy].
    split; [split|exists w; apply AT, Cy].
    + apply A9. unfold dr, as_. rewrite A6. exact Y.
    + eapply at_lt, Cy.
Qed.
End Refine.
