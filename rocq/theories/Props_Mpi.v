(** C24 and C25. *)
From Coq Require Import String ZArith List Bool Lia.
From Verif Require Import Base Space Utils Spec_mpi Utils_proofs Mpi Mpi_proofs.
Import ListNotations.
Open Scope list_scope.
Open Scope Z_scope.

(** C24.  Any world size, also larger than the number of points; [g] does not
    depend on the rank.  Errors included: rank 0 behaves as the serial run. *)
Theorem C24_serial : forall T K (g : T * T -> result K) n k w, (1 <= n)%nat ->
  greens_function (fun _ => g) (Some n) 0 k w = greens_function (fun _ => g) None 0 k w.
Proof. intros T K g n k w H. exact (greens_parallel g n k w H). Qed.
Print Assumptions C24_serial.

(** The other ranks return None. *)
Theorem C24_others : forall T K (g : T * T -> result K) n r k w a, (1 <= n)%nat -> (0 < r)%nat ->
  greens_function (fun _ => g) None 0 k w = Ok a -> greens_function (fun _ => g) (Some n) r k w = Ok None.
Proof. intros T K g n r k w a Hn Hr E. exact (greens_other g n r k w a Hn Hr E). Qed.
Print Assumptions C24_others.

(** What is returned: entry [i][j] belongs to (k[i], w[j]). *)
Theorem C24_entries : forall T K (g : T * T -> result K) f n k w ks ws, (1 <= n)%nat -> elements (float_to_list k) = Ok ks -> elements (float_to_list w) = Ok ws ->
  (forall x y, In x ks -> In y ws -> g (x, y) = Ok (f (x, y))) ->
  exists a, greens_function (fun _ => g) (Some n) 0 k w = Ok (Some a) /\ List.length a = List.length ks /\
    forall i j x y, nth_error ks i = Some x -> nth_error ws j = Some y ->
      exists row, nth_error a i = Some row /\ List.length row = List.length ws /\ nth_error row j = Some (f (x, y)).
Proof.
  intros T K g f n k w ks ws Hn Ek Ew F. exists (grid_of f ks ws). split; [|split].
  - rewrite C24_serial by exact Hn. exact (greens_serial g f k w ks ws Ek Ew F).
  - apply map_length.
  - intros i j x y Hx Hy. exists (map (fun y => f (x, y)) ws). split; [|split].
    + unfold grid_of. exact (map_nth_error (fun x => map (fun y => f (x, y)) ws) i ks Hx).
    + apply map_length.
    + exact (map_nth_error (fun y => f (x, y)) j ws Hy).
Qed.
Print Assumptions C24_entries.

(** Every point is computed by exactly one rank, in order, and the numbers of
    points on two ranks differ by at most one. *)
Theorem C24_distribution : forall T (jobs : list (T * T)) n, (1 <= n)%nat ->
  exists parts, (forall r, (r < n)%nat -> jobs_on_rank (Some n) r jobs = Ok (nth r parts [])) /\ List.length parts = n /\ fair parts jobs.
Proof.
  intros T jobs n Hn. destruct (array_split_fair _ jobs (Z.of_nat n) ltac:(lia)) as [parts [E [L [F _]]]]. rewrite Nat2Z.id in L.
  exists parts. split; [|split; assumption]. intros r Hr. unfold jobs_on_rank, chunk_jobs. rewrite E. cbn [bind]. rewrite (nth_error_nth' parts []) by lia. reflexivity.
Qed.
Print Assumptions C24_distribution.

(** A float is a grid of one point; an int is not accepted. *)
Theorem C24_scalar : forall T K (s : nat -> T * T -> result K) n r x w, greens_function s n r (AFloat x) w = greens_function s n r (AList [x]) w.
Proof. intros T K s n r x w. reflexivity. Qed.
Print Assumptions C24_scalar.
Theorem C24_int_refuted : exists T K (s : nat -> T * T -> result K) z w, (forall r p, exists v, s r p = Ok v) /\
  forall n, (n = None \/ exists m, (1 <= m)%nat /\ n = Some m) -> greens_function s n 0 (AInt z) w = Err TypeError.
Proof.
  exists Z, Z, (fun _ p => Ok (fst p)), 0, (AList [1]). split; [intros r p; eexists; reflexivity|]. intros n [->|[m [Hm ->]]]; [reflexivity|].
  destruct m as [|m]; [lia|]. reflexivity.
Qed.
Print Assumptions C24_int_refuted.

Example C24_nonvacuous :
  greens_function (fun (_ : nat) (p : Z * Z) => Ok (fst p * 10 + snd p)) (Some 4%nat) 0 (AList [1; 2; 3]) (AList [5; 6]) = Ok (Some [[15; 16]; [25; 26]; [35; 36]]) /\
  greens_function (fun (_ : nat) (p : Z * Z) => Ok (fst p * 10 + snd p)) (Some 9%nat) 0 (AFloat 1) (AList [5; 6]) = Ok (Some [[15; 16]]) /\
  greens_function (fun (_ : nat) (p : Z * Z) => Ok (fst p * 10 + snd p)) (Some 9%nat) 8 (AFloat 1) (AList [5; 6]) = Ok None.
Proof. repeat split. Qed.

(** C25.  Which brigade sizes are accepted. *)
Theorem C25_accepted : forall W b, split_into_brigades W (Some b) = Ok tt -> (b | Z.of_nat W).
Proof.
  intros W b E. unfold split_into_brigades in E. destruct (Z.eqb_spec b 0) as [|Hb]; [discriminate|].
  destruct (Z.eqb_spec (Z.of_nat W mod b) 0) as [D|D]; [|discriminate]. apply Z.mod_divide; assumption.
Qed.
Print Assumptions C25_accepted.
Theorem C25_rejected : forall W b, b <> 0 -> ~ (b | Z.of_nat W) -> split_into_brigades W (Some b) = Err AssertionError.
Proof.
  intros W b Hb D. unfold split_into_brigades. destruct (Z.eqb_spec b 0) as [|_]; [contradiction|].
  destruct (Z.eqb_spec (Z.of_nat W mod b) 0) as [E|_]; [|reflexivity]. exfalso. apply D. apply Z.mod_divide; assumption.
Qed.
Print Assumptions C25_rejected.
Theorem C25_divisors : forall W b, 0 < b -> (b | Z.of_nat W) -> split_into_brigades W (Some b) = Ok tt.
Proof.
  intros W b Hb D. unfold split_into_brigades. destruct (Z.eqb_spec b 0) as [|_]; [lia|]. apply Z.mod_divide in D; [|lia]. rewrite D. cbn [guard Z.eqb bind].
  assert (A : forallb (fun r => 0 <=? mpi_brigade (Some b) r) (seq 0 W) = true); [|rewrite A; reflexivity].
  apply forallb_forall. intros r _. cbn [mpi_brigade]. rewrite quot_pos by exact Hb. apply Z.leb_le. apply Z.div_pos; lia.
Qed.
Print Assumptions C25_divisors.

(** A brigade consists of [b] consecutive ranks; the rank within the brigade is
    the remainder. *)
Theorem C25_brigades : forall W b r, 0 < b -> (b | Z.of_nat W) -> (r < W)%nat ->
  mpi_brigade (Some b) r = Z.of_nat r / b /\ Z.of_nat (brigade_rank W (Some b) r) = Z.of_nat r mod b /\
  forall n, 0 <= n < brigades W (Some b) -> len (members W (Some b) n) = b.
Proof.
  intros W b r Hb [B D] Hr. rewrite Z.mul_comm in D. split; [apply quot_pos; exact Hb|]. split; [exact (brigade_rank_mod W b B r Hb D Hr)|].
  intros n Hn. cbn [brigades] in Hn. rewrite quot_pos in Hn by exact Hb. rewrite D, Z.mul_comm, Z.div_mul in Hn by lia.
  rewrite (brigade_members W b B Hb D n Hn). unfold len. rewrite map_length, seq_length. lia.
Qed.
Print Assumptions C25_brigades.

(** Every brigade gets the same number of points, every point goes to exactly
    one brigade, and all ranks of a brigade get the same points. *)
Theorem C25_balanced : forall T (G : gridops T) W bs k w ks ws, brigaded W bs -> brigade_grid G W bs k w = Ok (ks, ws) ->
  exists parts, List.length parts = Z.to_nat (brigades W bs) /\ List.concat parts = points ks ws /\
    (forall p, In p parts -> len p * brigades W bs = len (points ks ws)) /\
    forall r, (r < W)%nat -> jobs_on_brigade W bs r (points ks ws) = Ok (nth (Z.to_nat (mpi_brigade bs r)) parts []).
Proof.
  intros T G W bs k w ks ws HB E. destruct (brigaded_size W bs HB) as [P1 [P2 P3]].
  destruct (array_split_fair _ (points ks ws) (brigades W bs) P1) as [parts [EP [L [[C _] EQ]]]].
  exists parts. split; [exact L|]. split; [exact C|]. split.
  - assert (D : (brigades W bs | len (points ks ws))).
    { unfold len, points. rewrite prod_length, Nat2Z.inj_mul. unfold brigade_grid in E.
      destruct (elements (float_to_list k)) as [k0|]; [|discriminate]. destruct (elements (float_to_list w)) as [w0|]; [|discriminate]. cbn [bind] in E.
      destruct (Z.eqb_spec ((len k0 * len w0) mod brigades W bs) 0) as [D|D].
      - assert (ks = k0 /\ ws = w0) as [-> ->] by (split; congruence). apply Z.mod_divide in D; [exact D|lia].
      - apply padded_kw_ok in E; [|lia]. destruct E as [[_ [-> [n [[Hn [D' _]] [_ [i [p [q [X [C1 _]]]]]]]]]]|[_ [-> [n [[Hn [D' _]] [_ [i [p [q [X [C1 _]]]]]]]]]]].
        + rewrite C1. unfold len in D'. rewrite Nat2Z.inj_add, Z2Nat.id by lia. exact D'.
        + rewrite C1. unfold len in D'. rewrite Nat2Z.inj_add, Z2Nat.id by lia. rewrite Z.mul_comm. exact D'. }
    intros p Hp. rewrite (EQ D p Hp). rewrite Z.mul_comm. symmetry. apply Z.div_exact; [lia|]. apply Z.mod_divide; [lia|exact D].
  - intros r Hr. rewrite (proj1 (jobs_chunk W bs r _ HB Hr)). unfold chunk_of. rewrite array_split_cut in EP by exact P1. congruence.
Qed.
Print Assumptions C25_balanced.

(** The result on every rank, if no value is NaN. *)
Theorem C25_result : forall T K Meta (G : gridops T) isnan (solve : nat -> T * T -> result (K * Meta)) (g : T * T -> K) mt W bs r k w ks ws, brigaded W bs ->
  brigade_grid G W bs k w = Ok (ks, ws) -> (forall r p, (r < W)%nat -> In p (points ks ws) -> solve r p = Ok (g p, mt r p)) ->
  (forall p, In p (points ks ws) -> isnan (g p) = false) ->
  exists metas, List.length metas = (List.length ks * List.length ws)%nat /\ mass_greens G isnan solve W bs r k w = Ok (grid_of g ks ws, metas).
Proof.
  intros T K Meta G isnan solve g mt W bs r k w ks ws HB E F NN. destruct (mass_shape G isnan solve g mt W bs r k w ks ws HB E F) as [ms [L R]]. exists ms. split; [exact L|].
  rewrite R, filter_id.
  - rewrite reshape_grid. reflexivity.
  - intros x Hx. apply in_map_iff in Hx. destruct Hx as [p [<- Hp]]. rewrite (NN p Hp). reflexivity.
Qed.
Print Assumptions C25_result.

(** The part of the result that belongs to the grid asked for. *)
Theorem C25_prefix : forall T K (G : gridops T) (g : T * T -> K) W bs k w k0 w0 ks ws, brigaded W bs ->
  elements (float_to_list k) = Ok k0 -> elements (float_to_list w) = Ok w0 -> brigade_grid G W bs k w = Ok (ks, ws) ->
  map (firstn (List.length w0)) (firstn (List.length k0) (grid_of g ks ws)) = grid_of g k0 w0 /\
  ((brigades W bs | len k0 * len w0) -> ks = k0 /\ ws = w0).
Proof.
  intros T K G g W bs k w k0 w0 ks ws HB Ek Ew E. destruct (brigaded_size W bs HB) as [P1 _]. unfold brigade_grid in E. rewrite Ek, Ew in E. cbn [bind] in E. split.
  - assert (FK : firstn (List.length k0) ks = k0 /\ firstn (List.length w0) ws = w0).
    { destruct (Z.eqb_spec ((len k0 * len w0) mod brigades W bs) 0) as [D|D].
      - assert (ks = k0 /\ ws = w0) as [-> ->] by (split; congruence). split; apply firstn_all.
      - apply padded_kw_ok in E; [|lia]. destruct E as [[_ [-> [n [_ [_ [i [p [q [X [_ [C2 _]]]]]]]]]]]|[_ [-> [n [_ [_ [i [p [q [X [_ [C2 _]]]]]]]]]]]].
        + split; [apply firstn_all|exact C2].
        + split; [exact C2|apply firstn_all]. }
    destruct FK as [F1 F2]. unfold grid_of. rewrite firstn_map, map_map, F1. apply map_ext. intros x. rewrite firstn_map, F2. reflexivity.
  - intros D. apply Z.mod_divide in D; [|lia]. rewrite D in E. cbn [Z.eqb] in E. split; congruence.
Qed.
Print Assumptions C25_prefix.

(** A NaN anywhere makes the run fail (the code removes NaNs, expecting them
    from padding only; padded points are computed like all others). *)
Theorem C25_nan : forall T K Meta (G : gridops T) isnan (solve : nat -> T * T -> result (K * Meta)) (g : T * T -> K) mt W bs r k w ks ws p, brigaded W bs ->
  brigade_grid G W bs k w = Ok (ks, ws) -> (forall r p, (r < W)%nat -> In p (points ks ws) -> solve r p = Ok (g p, mt r p)) ->
  In p (points ks ws) -> isnan (g p) = true -> mass_greens G isnan solve W bs r k w = Err ValueError.
Proof.
  intros T K Meta G isnan solve g mt W bs r k w ks ws p HB E F Hp NN. destruct (mass_shape G isnan solve g mt W bs r k w ks ws HB E F) as [ms [L R]].
  rewrite R. unfold reshape.
  pose proof (filter_short _ (fun x => negb (isnan x)) (map g (points ks ws)) (g p) (in_map g _ _ Hp) ltac:(cbn beta; rewrite NN; reflexivity)) as FS.
  rewrite map_length in FS. rewrite <- (prod_length ks ws).
  destruct (Nat.eqb_spec (List.length (filter (fun x => negb (isnan x)) (map g (points ks ws)))) (List.length (list_prod ks ws))) as [X|X]; [|reflexivity]. unfold points in *. lia.
Qed.
Print Assumptions C25_nan.

Definition demo (_ : nat) (p : Z * Z) : result (Z * unit) := Ok (fst p * 100 + snd p, tt).
Example C25_nonvacuous : brigaded 6 (Some 2) /\ brigade_grid Zgrid 6 (Some 2) (AList [1; 2]) (AList [10; 20]) = Ok ([1; 2], [10; 20; 30]) /\
  mass_greens Zgrid (fun _ => false) demo 6 (Some 2) 5 (AList [1; 2]) (AList [10; 20]) = Ok ([[110; 120; 130]; [210; 220; 230]], repeat tt 6) /\
  mass_greens Zgrid (fun _ => false) demo 6 None 5 (AList [1; 2]) (AList [10; 20]) = Ok ([[110; 120]; [210; 220]], repeat tt 4).
Proof.
  split; [|repeat split; vm_compute; reflexivity]. constructor; [lia|intros b E; injection E as <-; lia|]. apply C25_divisors; [lia|]. exists 3. reflexivity.
Qed.

(** The documented shape (nk by nw) is wrong for a padded grid. *)
Theorem C25_shape_refuted : exists (W : nat) bs k w ks ws a ms, brigaded W bs /\ elements (float_to_list k) = Ok ks /\ elements (float_to_list w) = Ok ws /\
  mass_greens Zgrid (fun _ => false) demo W bs 0 k w = Ok (a, ms) /\ exists row, In row a /\ List.length row <> List.length ws.
Proof.
  exists 6%nat, (Some 2), (AList [1; 2]), (AList [10; 20]), [1; 2], [10; 20]. do 2 eexists. split; [apply C25_nonvacuous|]. split; [reflexivity|]. split; [reflexivity|].
  split; [vm_compute; reflexivity|]. eexists. split; [left; reflexivity|]. discriminate.
Qed.
Print Assumptions C25_shape_refuted.

(** One point on two brigades fails. *)
Theorem C25_one_point_refuted : exists W bs k w, brigaded W bs /\ mass_greens Zgrid (fun _ => false) demo W bs 0 (AFloat k) (AFloat w) = Err IndexError.
Proof.
  exists 6%nat, (Some 2), 1, 10. split; [apply C25_nonvacuous|]. vm_compute. reflexivity.
Qed.
Print Assumptions C25_one_point_refuted.
