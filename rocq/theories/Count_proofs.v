(** C11: the closed-form count of generalized equations. *)
From Coq Require Import ZArith List Bool Lia Permutation.
From Verif Require Import Base NdArray NdArray_proofs Config Spec Spec_ops Config_proofs
  Modify_proofs Legal_proofs Model Space Spec_space Space_proofs.
Import ListNotations.
Open Scope Z_scope.

(* ---------- number of compositions ---------- *)

Lemma binom_0 : forall n, binom n 0 = 1.
Proof. destruct n; auto. Qed.

Lemma hockey : forall l s,
  sumZ (map (fun j => binom (l + j) j) (seq 0 (S s))) = binom (S l + s) s.
Proof.
  induction s.
  - simpl. rewrite !binom_0. auto.
  - rewrite seq_S, map_app, sumZ_app, IHs. replace (S l + S s)%nat with (S (S l + s)) by lia.
    cbn [binom map sumZ fold_right]. replace (l + (0 + S s))%nat with (S l + s)%nat by lia.
    cbn [plus]. lia.
Qed.

Lemma range_succ : forall s, 0 <= s -> range 0 (s + 1) = map Z.of_nat (seq 0 (S (Z.to_nat s))).
Proof.
  intros. unfold range. replace (Z.to_nat (s + 1 - 0)) with (S (Z.to_nat s)) by lia.
  apply map_ext. intros; lia.
Qed.

Lemma length_flat_map : forall {A B} (f : A -> list B) l,
  Z.of_nat (length (flat_map f l)) = sumZ (map (fun x => Z.of_nat (length (f x))) l).
Proof.
  induction l; auto. cbn [flat_map map]. rewrite app_length.
  change (sumZ (Z.of_nat (length (f a)) :: map (fun x => Z.of_nat (length (f x))) l))
    with (Z.of_nat (length (f a)) + sumZ (map (fun x => Z.of_nat (length (f x))) l)). lia.
Qed.

Lemma sumZ_rev_seq : forall (f : nat -> Z) s,
  sumZ (map (fun v => f (s - v)%nat) (seq 0 (S s))) = sumZ (map f (seq 0 (S s))).
Proof.
  intros f s. apply sumZ_perm. rewrite <- (map_map (fun v => (s - v)%nat) f).
  apply Permutation_map. apply NoDup_Permutation.
  - apply NoDup_map_inj; [|apply seq_NoDup]. intros x y Hx Hy. apply in_seq in Hx. apply in_seq in Hy. lia.
  - apply seq_NoDup.
  - intros x. rewrite in_map_iff, in_seq. split.
    + intros [y [<- Hy]]. apply in_seq in Hy. lia.
    + intros H. exists (s - x)%nat. rewrite in_seq. lia.
Qed.

Lemma length_csg : forall l s, Z.of_nat (length (csg l (Z.of_nat s))) = binom (l + s) s.
Proof.
  induction l; intros s.
  - simpl. clear. assert (H : forall n k, (n < k)%nat -> binom n k = 0).
    { induction n; destruct k; simpl; intros; auto; try lia. rewrite !IHn by lia. auto. }
    induction s; auto. cbn [binom]. rewrite <- IHs, H by lia. auto.
  - cbn [csg]. rewrite length_flat_map, range_succ by lia. rewrite map_map, Nat2Z.id.
    rewrite <- hockey. rewrite <- sumZ_rev_seq. apply sumZ_map_ext.
    intros v Hv. apply in_seq in Hv. rewrite map_length.
    replace (Z.of_nat s - Z.of_nat (s - v)) with (Z.of_nat v) by lia. apply IHl.
Qed.

(* ---------- clouds with both edges occupied ---------- *)

Definition edge_lists (z : nat) (n : Z) : list (list Z) :=
  match z with
  | O => []
  | S O => [[n]]
  | S (S k) =>
      if n <? 2 then []
      else map (fun x => setn (setn x 0 (nth 0 x 0 + 1)) (S k) (nth (S k) x 0 + 1)) (csg (S k) (n - 2))
  end.

Lemma sumZ_setn : forall l i v, (i < length l)%nat -> sumZ (setn l i (nth i l 0 + v)) = sumZ l + v.
Proof.
  induction l; simpl; intros; [lia|]. destruct i; simpl.
  - unfold sumZ. simpl. lia.
  - unfold sumZ in *. simpl. rewrite IHl by lia. lia.
Qed.

Lemma Forall_nth0 : forall (l : list Z), Forall (fun v => 0 <= v) l <-> forall i, 0 <= nth i l 0.
Proof.
  intros. split.
  - induction 1; destruct i; simpl; auto; lia.
  - induction l; intros; constructor; [apply (H 0%nat)|]. apply IHl. intros i. apply (H (S i)).
Qed.

Lemma In_edge_lists : forall z n x, 1 <= n -> (1 <= z)%nat ->
  (In x (edge_lists z n) <->
   length x = z /\ (forall i, 0 <= nth i x 0) /\ sumZ x = n /\ 0 < nth 0 x 0 /\ 0 < nth (z - 1) x 0).
Proof.
  intros z n x Hn Hz. destruct z as [|[|k]]; [lia| |]; cbn [edge_lists].
  - split.
    + intros [<-|[]]. split; auto. split; [destruct i as [|[|]]; simpl; lia|]. simpl. lia.
    + intros [L [_ [S _]]]. destruct x as [|v [|]]; try (simpl in L; lia). left. f_equal. simpl in S. lia.
  - replace (S (S k) - 1)%nat with (S k) by lia.
    destruct (n <? 2) eqn:E.
    + split; [easy|]. intros [L [P [S [H0 H1]]]]. exfalso.
      destruct x as [|v x]; [simpl in L; lia|]. simpl in H0, H1.
      assert (nth k x 0 <= sumZ x).
      { apply sumZ_In_le; [apply Forall_nth0; intros i; apply (P (Datatypes.S i))|].
        apply nth_In. simpl in L. lia. }
      change (v + sumZ x = n) in S. lia.
    + rewrite in_map_iff. split.
      * intros [y [<- Hy]]. apply In_csg in Hy; [|lia]. destruct Hy as [L [F S]].
        rewrite Forall_nth0 in F.
        assert (L1 : length (setn y 0 (nth 0 y 0 + 1)) = Datatypes.S (Datatypes.S k)) by (rewrite length_setn; auto).
        assert (Q : nth (Datatypes.S k) (setn y 0 (nth 0 y 0 + 1)) 0 = nth (Datatypes.S k) y 0) by (apply nth_setn_ne; lia).
        split; [rewrite !length_setn; auto|].
        assert (P0 : nth 0 (setn (setn y 0 (nth 0 y 0 + 1)) (Datatypes.S k) (nth (Datatypes.S k) y 0 + 1)) 0 = nth 0 y 0 + 1).
        { rewrite nth_setn_ne by lia. apply nth_setn_eq. lia. }
        assert (P1 : nth (Datatypes.S k) (setn (setn y 0 (nth 0 y 0 + 1)) (Datatypes.S k) (nth (Datatypes.S k) y 0 + 1)) 0 = nth (Datatypes.S k) y 0 + 1).
        { apply nth_setn_eq. lia. }
        split; [|split; [|split]].
        -- intros i. destruct (Nat.eq_dec i (Datatypes.S k)) as [->|N1]; [rewrite P1; specialize (F (Datatypes.S k)); lia|].
           destruct (Nat.eq_dec i 0) as [->|N0]; [rewrite P0; specialize (F 0%nat); lia|].
           rewrite !nth_setn_ne by lia. apply F.
        -- rewrite <- Q. rewrite sumZ_setn by lia. rewrite sumZ_setn by lia. lia.
        -- rewrite P0. specialize (F 0%nat). lia.
        -- rewrite P1. specialize (F (Datatypes.S k)). lia.
      * intros [L [P [S [H0 H1]]]].
        exists (setn (setn x 0 (nth 0 x 0 - 1)) (Datatypes.S k) (nth (Datatypes.S k) x 0 - 1)).
        set (y := setn (setn x 0 (nth 0 x 0 - 1)) (Datatypes.S k) (nth (Datatypes.S k) x 0 - 1)).
        assert (Ly : length y = Datatypes.S (Datatypes.S k)) by (unfold y; rewrite !length_setn; auto).
        assert (L1 : length (setn x 0 (nth 0 x 0 - 1)) = Datatypes.S (Datatypes.S k)) by (rewrite length_setn; auto).
        assert (P0 : nth 0 y 0 = nth 0 x 0 - 1).
        { unfold y. rewrite nth_setn_ne by lia. apply nth_setn_eq. lia. }
        assert (P1 : nth (Datatypes.S k) y 0 = nth (Datatypes.S k) x 0 - 1).
        { unfold y. apply nth_setn_eq. lia. }
        assert (Pi : forall i, i <> 0%nat -> i <> Datatypes.S k -> nth i y 0 = nth i x 0).
        { intros. unfold y. rewrite !nth_setn_ne by lia. auto. }
        split.
        -- apply vec_ext; [rewrite !length_setn; lia|]. intros i.
           destruct (Nat.eq_dec i (Datatypes.S k)) as [->|N1].
           { rewrite nth_setn_eq by (rewrite length_setn; lia). lia. }
           rewrite nth_setn_ne by lia.
           destruct (Nat.eq_dec i 0) as [->|N0]; [rewrite nth_setn_eq by lia; lia|].
           rewrite nth_setn_ne by lia. auto.
        -- apply In_csg; [lia|]. split; auto. split.
           { apply Forall_nth0. intros i. destruct (Nat.eq_dec i (Datatypes.S k)) as [->|N1]; [lia|].
             destruct (Nat.eq_dec i 0) as [->|N0]; [lia|]. rewrite Pi by auto. auto. }
           unfold y. assert (Q : nth (Datatypes.S k) (setn x 0 (nth 0 x 0 - 1)) 0 = nth (Datatypes.S k) x 0) by (apply nth_setn_ne; lia).
           rewrite <- Q. rewrite <- !Z.add_opp_r. rewrite sumZ_setn by (rewrite length_setn; lia).
           rewrite sumZ_setn by lia. lia.
Qed.

Lemma bump_inj : forall k x y, length x = S (S k) -> length y = S (S k) ->
  setn (setn x 0 (nth 0 x 0 + 1)) (S k) (nth (S k) x 0 + 1) =
  setn (setn y 0 (nth 0 y 0 + 1)) (S k) (nth (S k) y 0 + 1) -> x = y.
Proof.
  intros k x y Lx Ly E. apply vec_ext; [lia|]. intros i.
  assert (Q : forall x, length x = S (S k) ->
     nth i x 0 = nth i (setn (setn x 0 (nth 0 x 0 + 1)) (S k) (nth (S k) x 0 + 1)) 0
        - (if Nat.eqb i 0 || Nat.eqb i (S k) then 1 else 0)).
  { clear. intros x Lx. destruct (Nat.eqb_spec i (S k)) as [->|N1].
    - rewrite orb_true_r, nth_setn_eq by (rewrite length_setn; lia). lia.
    - rewrite nth_setn_ne by lia. destruct (Nat.eqb_spec i 0) as [->|N0].
      + rewrite nth_setn_eq by lia. simpl. lia.
      + rewrite nth_setn_ne by lia. simpl. lia. }
  rewrite (Q x Lx), (Q y Ly), E. auto.
Qed.

Lemma NoDup_edge_lists : forall z n, NoDup (edge_lists z n).
Proof.
  intros [|[|k]] n; cbn [edge_lists]; [constructor|constructor; [auto|constructor]|].
  destruct (n <? 2) eqn:E; [constructor|].
  apply NoDup_map_inj; [|apply NoDup_csg]. intros x y Hx Hy. apply bump_inj.
  - apply In_csg in Hx; [tauto|lia].
  - apply In_csg in Hy; [tauto|lia].
Qed.

Lemma binom_gt : forall n k, (n < k)%nat -> binom n k = 0.
Proof. induction n; destruct k; simpl; intros; auto; try lia. rewrite !IHn by lia. auto. Qed.

Lemma length_edge_lists : forall z n, 1 <= n -> (1 <= z)%nat ->
  Z.of_nat (length (edge_lists z n)) = combinatorics_term (Z.of_nat z) n.
Proof.
  intros z n Hn Hz. unfold combinatorics_term. destruct z as [|[|k]]; [lia| |]; cbn [edge_lists].
  - auto.
  - replace (Z.of_nat (S (S k)) =? 1) with false by lia. cbn [orb].
    destruct (n <? 2) eqn:E.
    + assert (n = 1) by lia. subst n. cbn [Z.eqb Pos.eqb]. unfold comb. auto.
    + rewrite map_length. replace (n - 2) with (Z.of_nat (Z.to_nat (n - 2))) by lia.
      rewrite length_csg. destruct (Z.eqb_spec n 2).
      * subst n. simpl. auto.
      * unfold comb. replace (Z.of_nat (Z.to_nat (n - 2)) <? 0) with false by lia.
        replace (Z.of_nat (S (S k)) + n - 3 <? 0) with false by lia. cbn [orb].
        f_equal; lia.
Qed.

(* ---------- single-type arrays ---------- *)

Lemma occ_1d : forall z x t y, length x = z ->
  occ (mkNd [1%nat; z] x) t y =
  match y with
  | [p] => if Nat.eqb t 0 && (0 <=? p) && (p <? Z.of_nat z) then nth (Z.to_nat p) x 0 else 0
  | _ => 0
  end.
Proof.
  intros z x t y L. unfold occ, at_. cbn [shp inb]. destruct y as [|p [|q y]].
  - destruct t; simpl; auto. rewrite andb_false_r. auto.
  - replace ((0 <=? Z.of_nat t) && (Z.of_nat t <? Z.of_nat 1)) with (Nat.eqb t 0)
      by (destruct (Nat.eqb_spec t 0); lia).
    rewrite andb_true_r, andb_assoc. destruct (Nat.eqb t 0 && (0 <=? p) && (p <? Z.of_nat z)) eqn:E; auto.
    assert (t = 0%nat) by (destruct (Nat.eqb_spec t 0); [auto|simpl in E; easy]). subst t.
    unfold get. simpl. f_equal. lia.
  - rewrite !andb_false_r. auto.
Qed.

Lemma total_type_1d : forall z x, length x = z -> total_type (mkNd [1%nat; z] x) 0 = sumZ x.
Proof.
  intros. pose proof (total_types (mkNd [1%nat; z] x)) as Q. unfold ntypes, total in Q. simpl in Q.
  unfold sumZ in *. rewrite Q; [lia| |lia]. unfold wf. simpl. lia.
Qed.

Lemma legal_1d : forall z x M N, length x = z -> (1 <= z)%nat -> Z.of_nat z <= M -> sumZ x <= N ->
  (legal_spec (mkNd [1%nat; z] x) None (Some [M]) (Some [N]) false <->
   (forall i, 0 <= nth i x 0) /\ 0 < nth 0 x 0 /\ 0 < nth (z - 1) x 0).
Proof.
  intros z x M N L Hz HM HN.
  assert (Occ : forall p, (p < z)%nat -> occ (mkNd [1%nat; z] x) 0 [Z.of_nat p] = nth p x 0).
  { intros p Hp. rewrite occ_1d by auto. cbn [Nat.eqb andb].
    replace ((0 <=? Z.of_nat p) && (Z.of_nat p <? Z.of_nat z)) with true by lia. rewrite Nat2Z.id. auto. }
  split.
  - intros [[? _]|[_ [Hnn [Ti _]]]]; [easy|]. 
    destruct (Ti 0%nat) as [[t1 [x1 [L1 [E1 P1]]]] [t2 [x2 [L2 [E2 P2]]]]]; [unfold ndim; simpl; lia|].
    rewrite occ_1d in P1, P2 by auto.
    destruct x1 as [|p1 [|]]; try (unfold ndim in L1; simpl in L1; lia).
    destruct x2 as [|p2 [|]]; try (unfold ndim in L2; simpl in L2; lia).
    simpl in E1, E2. subst p1 p2.
    destruct (Nat.eqb t1 0 && (0 <=? 0) && (0 <? Z.of_nat z)); [|lia].
    destruct (Nat.eqb t2 0 && _ && _) in P2; [|lia].
    replace (Z.to_nat (Z.of_nat z - 1)) with (z - 1)%nat in P2 by lia.
    split; auto. intros i. destruct (Nat.lt_ge_cases i z).
    + rewrite <- Occ by auto. apply Hnn.
    + rewrite nth_overflow by lia. lia.
  - intros [Hnn [P0 P1]]. right. split; [simpl; lia|]. split; [|split; [|split; [easy|split]]].
    + intros t y. rewrite occ_1d by auto. destruct y as [|p [|]]; try lia.
      destruct (Nat.eqb t 0 && _ && _); [apply Hnn|lia].
    + intros d Hd. unfold ndim in Hd. simpl in Hd. assert (d = 0%nat) by lia. subst d. split.
      * exists 0%nat, [0]. split; auto. split; auto. change 0 with (Z.of_nat 0) at 2. rewrite Occ; auto.
      * exists 0%nat, [Z.of_nat (z - 1)]. split; auto. cbn [nth shp].
        split; [lia|]. rewrite Occ by lia. auto.
    + intros e [= <-] t Ht. unfold ntypes in Ht. simpl in Ht. assert (t = 0%nat) by lia. subst t. cbn [nth].
      split; [lia|]. intros y1 y2 H1 H2. rewrite occ_1d in H1, H2 by auto.
      destruct y1 as [|p1 [|]]; try lia. destruct y2 as [|p2 [|]]; try lia. cbn [hd].
      destruct (Nat.eqb 0 0 && (0 <=? p1) && (p1 <? Z.of_nat z)) eqn:E1; [|lia].
      destruct (Nat.eqb 0 0 && (0 <=? p2) && (p2 <? Z.of_nat z)) eqn:E2; [|lia]. lia.
    + intros e [= <-] t Ht. unfold ntypes in Ht. simpl in Ht. assert (t = 0%nat) by lia. subst t. cbn [nth].
      rewrite total_type_1d by auto. auto.
Qed.

(** The number of clouds generated under key [n]. *)
Lemma space_count : forall l M N n, 1 <= n <= N -> 1 <= M -> NoDup l ->
  (forall a, In a l <-> in_space 1 M None [M] [N] n a) ->
  Z.of_nat (length l) = sumZ (map (fun z => combinatorics_term z n) (range 1 (M + 1))).
Proof.
  intros l M N n Hn HM ND Hl.
  set (l' := flat_map (fun z => map (mkNd [1%nat; Z.to_nat z]) (edge_lists (Z.to_nat z) n)) (range 1 (M + 1))).
  assert (P : Permutation l l').
  { apply NoDup_Permutation; auto.
    - unfold l'. apply NoDup_flat_map; [apply NoDup_range| |].
      + intros z _. apply NoDup_map_inj; [|apply NoDup_edge_lists]. intros; congruence.
      + intros z z' a Hz Hz' Ha Ha'. apply In_range in Hz. apply In_range in Hz'.
        apply in_map_iff in Ha. apply in_map_iff in Ha'.
        destruct Ha as [? [<- _]]. destruct Ha' as [? [E _]]. injection E as E1 _. lia.
    - intros a. rewrite Hl. unfold l'. rewrite in_flat_map. unfold in_space. split.
      + intros [W [[z [S Hz]] [Tt Lg]]]. exists (Z.of_nat z). rewrite In_range, Nat2Z.id. split; [lia|].
        apply in_map_iff. exists (dat a). split; [destruct a; simpl in *; congruence|].
        assert (Lx : length (dat a) = z) by (unfold wf in W; rewrite S in W; simpl in W; lia).
        apply In_edge_lists; [lia|lia|].
        assert (Ea : a = mkNd [1%nat; z] (dat a)) by (destruct a; simpl in *; congruence).
        rewrite Ea in Lg. apply legal_1d in Lg; auto; try lia; [|unfold total in Tt; lia].
        split; auto. split; [tauto|]. split; [exact Tt|]. tauto.
      + intros [z [Hz Ha]]. apply In_range in Hz. apply in_map_iff in Ha. destruct Ha as [x [<- Hx]].
        apply In_edge_lists in Hx; [|lia|lia]. destruct Hx as [L [P [S [P0 P1]]]].
        split; [unfold wf; simpl; lia|]. split; [exists (Z.to_nat z); split; auto; lia|].
        split; [exact S|]. apply legal_1d; auto; lia. }
  rewrite (Permutation_length P). unfold l'. rewrite length_flat_map. apply sumZ_map_ext.
  intros z Hz. apply In_range in Hz. rewrite map_length, length_edge_lists by lia. f_equal. lia.
Qed.

Lemma assocZ_In : forall {A} (d : list (Z * A)) k v, NoDup (map fst d) -> In (k, v) d -> assocZ k d = Some v.
Proof.
  induction d as [|[k' v'] d IH]; simpl; intros k v ND H; [easy|]. inversion ND; subst.
  destruct H as [H|H]; [injection H as -> ->; rewrite Z.eqb_refl; auto|].
  destruct (Z.eqb_spec k' k); [|auto]. subst. exfalso. apply H2. apply in_map_iff. exists (k, v). auto.
Qed.

Lemma count_formula : forall {T} (m : model T) M N,
  wf_model m -> m_ntypes m = 1%nat -> m_mps m = None -> m_pe m = [M] -> m_pn m = [N] ->
  m_aext m = None -> 1 <= M -> 1 <= N ->
  exists d t, generate_space m = Ok d /\
    total_generalized_equations (m_pe m) (m_pn m) 1 = Ok t /\ space_size d = t /\
    predict_total_terms m (1 + space_size d) = Ok (Some true).
Proof.
  intros T m M N W Nt Mps Pe Pn Ae HM HN.
  assert (Eae : absolute_extent m = Some M) by (unfold absolute_extent; rewrite Ae, Pe; auto).
  destruct (generate_space_spec m M W Eae) as [d [E [K Hd]]].
  rewrite Pn in K, Hd. replace (sumZ [N]) with N in K, Hd by (simpl; lia).
  assert (Et : total_generalized_equations (m_pe m) (m_pn m) 1 =
     Ok (sumZ (map (fun m => sumZ (map (combinatorics_term m) (range 1 (N + 1)))) (range 1 (M + 1))))).
  { unfold total_generalized_equations. rewrite Pe, Pn. cbn [seq mapM nth_error bind fold_right]. f_equal. lia. }
  assert (Sz : space_size d = sumZ (map (fun m => sumZ (map (combinatorics_term m) (range 1 (N + 1)))) (range 1 (M + 1)))).
  { rewrite sumZ_swap. rewrite <- K. unfold space_size. rewrite map_map. apply sumZ_map_ext.
    intros [k v] Hkv. cbn [fst snd].
    assert (Hk : In k (range 1 (N + 1))) by (rewrite <- K; apply in_map_iff; exists (k, v); auto).
    apply In_range in Hk. destruct (Hd k ltac:(lia)) as [l [Ea [ND Hl]]].
    rewrite (assocZ_In d k v) in Ea; [|rewrite K; apply NoDup_range|auto]. injection Ea as ->.
    rewrite map_length. apply space_count with (N := N); auto; [lia|].
    intros a. rewrite Hl. unfold model_space. rewrite Nt, Mps, Pe, Pn. easy. }
  exists d. eexists. split; auto. split; [exact Et|]. split; auto.
  unfold predict_total_terms. rewrite Mps, Nt, Nat.eqb_refl, Et. cbn [bind]. rewrite Sz, Z.eqb_refl. auto.
Qed.
