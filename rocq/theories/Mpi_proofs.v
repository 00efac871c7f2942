(** Lemmas on Mpi.v. *)
From Coq Require Import String ZArith List Bool Lia.
From Verif Require Import Base Space Utils Spec_mpi Utils_proofs Mpi Legal_proofs.
Import ListNotations.
Open Scope list_scope.
Open Scope Z_scope.

(** * Splitting *)
Fixpoint cut {A} (sizes : list nat) (l : list A) : list (list A) :=
  match sizes with [] => [] | n :: r => firstn n l :: cut r (skipn n l) end.

Lemma skipn_add : forall A a b (l : list A), skipn a (skipn b l) = skipn (b + a) l.
Proof. intros A a b. induction b as [|b IH]; intros [|x l]; cbn [skipn Nat.add]; try reflexivity; try (destruct a; reflexivity). apply IH. Qed.

Lemma slices_cut : forall A (l : list A) sizes a,
  map (fun i => slice_list l (nth i (cumsum a sizes) 0%nat) (nth (S i) (cumsum a sizes) 0%nat)) (seq 0 (List.length sizes)) = cut sizes (skipn a l).
Proof.
  intros A l sizes. induction sizes as [|n r IH]; intros a; [reflexivity|]. cbn [List.length seq map cumsum cut]. f_equal.
  - unfold slice_list. cbn [nth]. assert (E : nth 0 (cumsum (a + n) r) 0%nat = (a + n)%nat) by (destruct r; reflexivity). rewrite E. f_equal. lia.
  - rewrite skipn_add, <- IH, <- seq_shift, map_map. reflexivity.
Qed.

Lemma section_sizes_length : forall t n, (0 < n)%nat -> List.length (section_sizes t n) = n.
Proof.
  intros t n H. unfold section_sizes. rewrite app_length, !repeat_length. pose proof (Nat.mod_upper_bound t n ltac:(lia)). lia.
Qed.
Fixpoint sumn (l : list nat) : nat := match l with [] => 0%nat | x :: r => (x + sumn r)%nat end.
Lemma sumn_app : forall l l', sumn (l ++ l') = (sumn l + sumn l')%nat.
Proof. induction l as [|x l IH]; intros l'; cbn [app sumn]; [reflexivity|]. rewrite IH. lia. Qed.
Lemma sumn_repeat : forall x n, sumn (repeat x n) = (n * x)%nat.
Proof. induction n as [|n IH]; cbn [repeat sumn]; [reflexivity|]. rewrite IH. lia. Qed.
Lemma section_sizes_sum : forall t n, (0 < n)%nat -> sumn (section_sizes t n) = t.
Proof.
  intros t n H. unfold section_sizes. rewrite sumn_app, !sumn_repeat. pose proof (Nat.mod_upper_bound t n ltac:(lia)).
  pose proof (Nat.div_mod t n ltac:(lia)). nia.
Qed.
Lemma section_sizes_in : forall t n x, In x (section_sizes t n) -> x = Nat.div t n \/ x = S (Nat.div t n).
Proof. intros t n x H. unfold section_sizes in H. apply in_app_or in H. destruct H as [H|H]; apply repeat_spec in H; auto. Qed.

Lemma cut_concat : forall A sizes (l : list A), List.concat (cut sizes l) = firstn (sumn sizes) l.
Proof.
  intros A sizes. induction sizes as [|n r IH]; intros l; cbn [cut List.concat sumn]; [reflexivity|]. rewrite IH.
  transitivity (firstn (n + sumn r) (firstn n l ++ skipn n l)); [|rewrite firstn_skipn; reflexivity].
  destruct (Nat.le_gt_cases n (List.length l)) as [H|H].
  - rewrite firstn_app, firstn_length, Nat.min_l by exact H. replace (n + sumn r - n)%nat with (sumn r) by lia. f_equal. rewrite firstn_firstn. f_equal. lia.
  - rewrite (firstn_all2 (n := n) l) by lia. rewrite (skipn_all2 (n := n) l) by lia. rewrite firstn_nil, !app_nil_r. rewrite firstn_all2 by lia. reflexivity.
Qed.
Lemma cut_lengths : forall A sizes (l : list A), (sumn sizes <= List.length l)%nat -> map (@List.length A) (cut sizes l) = sizes.
Proof.
  intros A sizes. induction sizes as [|n r IH]; intros l H; cbn [cut map sumn] in *; [reflexivity|]. f_equal.
  - rewrite firstn_length. lia.
  - apply IH. rewrite skipn_length. lia.
Qed.

Lemma array_split_cut : forall A (l : list A) n, 0 < n -> array_split l n = Ok (cut (section_sizes (List.length l) (Z.to_nat n)) l).
Proof.
  intros A l n H. unfold array_split. destruct (Z.leb_spec n 0); [lia|]. f_equal.
  rewrite <- (slices_cut A l _ 0%nat : _ = cut _ (skipn 0 l)). rewrite section_sizes_length by lia. reflexivity.
Qed.

Lemma array_split_fair : forall A (l : list A) n, 0 < n -> exists parts, array_split l n = Ok parts /\ List.length parts = Z.to_nat n /\ fair parts l /\
  ((n | len l) -> forall p, In p parts -> len p = len l / n).
Proof.
  intros A l n H. rewrite array_split_cut by exact H. eexists. split; [reflexivity|].
  set (sz := section_sizes (List.length l) (Z.to_nat n)). assert (S1 : sumn sz = List.length l) by (apply section_sizes_sum; lia).
  assert (LS : map (@List.length A) (cut sz l) = sz) by (apply cut_lengths; lia).
  assert (LN : forall p, In p (cut sz l) -> In (List.length p) sz) by (intros p Hp; rewrite <- LS; apply in_map; exact Hp).
  split; [|split; [split|]].
  - rewrite <- (map_length (@List.length A)), LS. apply section_sizes_length. lia.
  - rewrite cut_concat, S1. apply firstn_all.
  - intros p q Hp Hq. apply LN, section_sizes_in in Hp. apply LN, section_sizes_in in Hq. lia.
  - intros D p Hp. apply LN in Hp. unfold sz, section_sizes in Hp. apply Z.mod_divide in D; [|lia].
    assert (M : (List.length l mod Z.to_nat n = 0)%nat).
    { apply Nat2Z.inj. rewrite Nat2Z.inj_mod, Z2Nat.id by lia. exact D. }
    rewrite M in Hp. cbn [repeat app] in Hp. apply repeat_spec in Hp. unfold len. rewrite Hp, Nat2Z.inj_div, Z2Nat.id by lia. reflexivity.
Qed.

(** * mapM *)
Lemma mapM_app : forall A B (f : A -> result B) l l', mapM f (l ++ l') = (a <- mapM f l ;; b <- mapM f l' ;; Ok (a ++ b)).
Proof.
  intros A B f l l'. induction l as [|x l IH]; cbn [app mapM bind].
  - destruct (mapM f l'); reflexivity.
  - destruct (f x); cbn [bind]; [|reflexivity]. rewrite IH. destruct (mapM f l); cbn [bind]; [|reflexivity]. destruct (mapM f l'); reflexivity.
Qed.
Lemma mapM_concat : forall A B (f : A -> result B) ls, mapM f (List.concat ls) = (a <- mapM (mapM f) ls ;; Ok (List.concat a)).
Proof.
  intros A B f ls. induction ls as [|l ls IH]; [reflexivity|]. cbn [List.concat mapM]. rewrite mapM_app, IH. destruct (mapM f l); cbn [bind]; [|reflexivity].
  destruct (mapM (mapM f) ls); reflexivity.
Qed.
Lemma mapM_map : forall A B C (f : B -> result C) (g : A -> B) l, mapM f (map g l) = mapM (fun x => f (g x)) l.
Proof. intros A B C f g l. induction l as [|x l IH]; [reflexivity|]. cbn [map mapM]. rewrite IH. reflexivity. Qed.
Lemma mapM_ext_in : forall A B (f g : A -> result B) l, (forall x, In x l -> f x = g x) -> mapM f l = mapM g l.
Proof. intros A B f g l. induction l as [|x l IH]; intros H; [reflexivity|]. cbn [mapM]. rewrite H by (left; reflexivity). rewrite IH; [reflexivity|]. intros y Hy. apply H. right. exact Hy. Qed.
Lemma mapM_pure : forall A B (f : A -> B) l, mapM (fun x => Ok (f x)) l = Ok (map f l).
Proof. intros A B f l. induction l as [|x l IH]; [reflexivity|]. cbn [mapM map bind]. rewrite IH. reflexivity. Qed.
Lemma mapM_nth : forall A B (f : A -> result B) (ls : list A) (d : A),
  mapM f ls = mapM (fun i => f (nth i ls d)) (seq 0 (List.length ls)).
Proof.
  intros A B f ls d. rewrite <- (mapM_map nat A B f (fun i => nth i ls d)). f_equal. apply nth_ext with (d := d) (d' := d); [rewrite map_length, seq_length; reflexivity|].
  intros n Hn. rewrite (nth_indep (map (fun i => nth i ls d) _) d (nth 0 ls d)) by (rewrite map_length, seq_length; exact Hn). rewrite (map_nth (fun i => nth i ls d)). rewrite seq_nth by exact Hn. reflexivity.
Qed.
Lemma flatten_concat : forall A (t : list (list A)), flatten t = List.concat t.
Proof. intros A t. unfold flatten. rewrite flat_map_concat_map. f_equal. rewrite <- (map_id t) at 2. apply map_ext. intros l. apply map_id. Qed.

(** * Reshaping *)
Lemma concat_rows : forall K nw (rows : list (list K)), (forall r, In r rows -> List.length r = nw) ->
  reshape (List.concat rows) (List.length rows) nw = Ok rows.
Proof.
  intros K nw rows H. unfold reshape.
  assert (L : List.length (List.concat rows) = (List.length rows * nw)%nat).
  { induction rows as [|r rows IH]; [reflexivity|]. cbn [List.concat List.length]. rewrite app_length, (H r), IH; [lia| |left; reflexivity]. intros x Hx. apply H. right. exact Hx. }
  rewrite L, Nat.eqb_refl. f_equal. clear L. induction rows as [|r rows IH]; [reflexivity|]. cbn [List.length seq map]. f_equal.
  - unfold slice_list. cbn [Nat.mul Nat.add skipn List.concat]. rewrite Nat.sub_0_r, <- (H r) by (left; reflexivity).
    rewrite firstn_app, Nat.sub_diag, firstn_O, app_nil_r. apply firstn_all.
  - rewrite <- seq_shift, map_map. rewrite <- IH at 2 by (intros x Hx; apply H; right; exact Hx). apply map_ext. intros i. unfold slice_list. cbn [List.concat].
    rewrite <- (H r) by (left; reflexivity). replace (S i * List.length r)%nat with (List.length r + i * List.length r)%nat by lia.
    rewrite <- skipn_add, skipn_app, Nat.sub_diag, skipn_all, skipn_O. cbn [app]. f_equal. lia.
Qed.

Section PointFacts.
Context {T : Type}.
Lemma jobs_points : forall (ks ws : list T), make_jobs (AList ks) (AList ws) = Ok (points ks ws).
Proof.
  intros ks ws. unfold make_jobs, points. cbn [elements bind].
  assert (E : flat_map (fun x => map (fun y => (x, y)) ws) ks = list_prod ks ws).
  { induction ks as [|x ks IH]; [reflexivity|]. cbn [flat_map list_prod]. rewrite IH. reflexivity. }
  destruct ks; [reflexivity|]. rewrite E. reflexivity.
Qed.
Lemma grid_concat : forall K (f : T * T -> K) ks ws, map f (points ks ws) = List.concat (grid_of f ks ws).
Proof.
  intros K f ks ws. unfold points, grid_of. induction ks as [|x ks IH]; [reflexivity|]. cbn [list_prod map List.concat]. rewrite map_app, map_map, IH. reflexivity.
Qed.
Lemma grid_rows : forall K (f : T * T -> K) ks ws r, In r (grid_of f ks ws) -> List.length r = List.length ws.
Proof. intros K f ks ws r H. unfold grid_of in H. apply in_map_iff in H. destruct H as [x [<- _]]. apply map_length. Qed.
Lemma reshape_grid : forall K (f : T * T -> K) ks ws, reshape (map f (points ks ws)) (List.length ks) (List.length ws) = Ok (grid_of f ks ws).
Proof.
  intros K f ks ws. rewrite grid_concat. replace (List.length ks) with (List.length (grid_of f ks ws)) by apply map_length. apply concat_rows. apply grid_rows.
Qed.
Lemma elements_list : forall (k : arg T) ks, elements (float_to_list k) = Ok ks -> float_to_list k = AList ks.
Proof. intros [x|z|l] ks E; cbn in *; congruence. Qed.
End PointFacts.

(** * BasicSolver *)
Section BasicFacts.
Context {T K : Type}.

(** The parts of the ranks, one after the other, are the serial part. *)
Lemma parts_serial : forall (g : T * T -> result K) n k w, (1 <= n)%nat ->
  (all <- mapM (fun r => rank_part (fun _ => g) (Some n) r k w) (seq 0 n) ;; Ok (flatten all)) = rank_part (fun _ => g) None 0 k w.
Proof.
  intros g n k w Hn. unfold rank_part, jobs_on_rank, chunk_jobs.
  destruct (make_jobs (float_to_list k) (float_to_list w)) as [jobs|x]; cbn [bind].
  - destruct (array_split_fair _ jobs (Z.of_nat n) ltac:(lia)) as [parts [-> [L [[C _] _]]]]. rewrite Nat2Z.id in L. cbn [bind].
    rewrite <- C, mapM_concat. rewrite (mapM_nth _ _ _ parts []), L.
    assert (E : mapM (fun r => mine <- match nth_error parts r with Some p => Ok p | None => Err IndexError end ;; mapM g mine) (seq 0 n) =
                mapM (fun i => mapM g (nth i parts [])) (seq 0 n)).
    { apply mapM_ext_in. intros r Hr. apply in_seq in Hr. rewrite (nth_error_nth' parts []) by lia. reflexivity. }
    rewrite E. destruct (mapM (fun i => mapM g (nth i parts [])) (seq 0 n)); cbn [bind]; [|reflexivity]. rewrite flatten_concat. reflexivity.
  - destruct n as [|n]; [lia|]. cbn [seq mapM bind]. reflexivity.
Qed.

Lemma greens_parallel : forall (g : T * T -> result K) n k w, (1 <= n)%nat ->
  greens_function (fun _ => g) (Some n) 0 k w = greens_function (fun _ => g) None 0 k w.
Proof.
  intros g n k w Hn. unfold greens_function. rewrite <- (parts_serial g n k w Hn). cbn [Nat.eqb].
  destruct (mapM _ (seq 0 n)) as [all|]; cbn [bind]; reflexivity.
Qed.

Lemma greens_other : forall (g : T * T -> result K) n r k w a, (1 <= n)%nat -> (0 < r)%nat ->
  greens_function (fun _ => g) None 0 k w = Ok a -> greens_function (fun _ => g) (Some n) r k w = Ok None.
Proof.
  intros g n r k w a Hn Hr E. rewrite <- (greens_parallel g n k w Hn) in E. unfold greens_function in *.
  destruct (mapM _ (seq 0 n)) as [all|]; cbn [bind] in *; [|discriminate]. destruct r; [lia|]. reflexivity.
Qed.

Lemma greens_serial : forall (g : T * T -> result K) f k w ks ws, elements (float_to_list k) = Ok ks -> elements (float_to_list w) = Ok ws ->
  (forall x y, In x ks -> In y ws -> g (x, y) = Ok (f (x, y))) -> greens_function (fun _ => g) None 0 k w = Ok (Some (grid_of f ks ws)).
Proof.
  intros g f k w ks ws Ek Ew F. apply elements_list in Ek, Ew. unfold greens_function, rank_part, jobs_on_rank, length_of. rewrite Ek, Ew, jobs_points. cbn [bind elements].
  rewrite (mapM_ext_in _ _ g (fun p => Ok (f p))).
  - rewrite mapM_pure. cbn [bind]. rewrite reshape_grid. reflexivity.
  - intros [x y] H. apply in_prod_iff in H. apply F; apply H.
Qed.
End BasicFacts.

(** * Brigades *)
Lemma quot_pos : forall r b, 0 < b -> Z.quot (Z.of_nat r) b = Z.of_nat r / b.
Proof. intros r b H. apply Z.quot_div_nonneg; lia. Qed.

Lemma brigade_members : forall W b B, 0 < b -> Z.of_nat W = b * B -> forall n, 0 <= n < B ->
  members W (Some b) n = map (fun i => Z.to_nat (n * b) + i)%nat (seq 0 (Z.to_nat b)).
Proof.
  intros W b B Hb HW n Hn. unfold members, mpi_brigade.
  assert (S3 : seq 0 W = seq 0 (Z.to_nat (n * b)) ++ seq (Z.to_nat (n * b)) (Z.to_nat b) ++ seq (Z.to_nat (n * b) + Z.to_nat b) (W - Z.to_nat (n * b) - Z.to_nat b)).
  { rewrite <- seq_app. replace (Z.to_nat (n * b)) with (0 + Z.to_nat (n * b))%nat at 2 by lia. rewrite <- seq_app. f_equal. nia. }
  rewrite S3, !filter_app.
  assert (F1 : forall l f, (forall r : nat, In r l -> f r = false) -> filter f l = []).
  { induction l as [|x l IH]; intros f H; [reflexivity|]. cbn [filter]. rewrite H by (left; reflexivity). apply IH. intros r Hr. apply H. right. exact Hr. }
  assert (F2 : forall l f, (forall r : nat, In r l -> f r = true) -> filter f l = l).
  { induction l as [|x l IH]; intros f H; [reflexivity|]. cbn [filter]. rewrite H by (left; reflexivity). f_equal. apply IH. intros r Hr. apply H. right. exact Hr. }
  rewrite (F1 (seq 0 _)). rewrite (F2 (seq (Z.to_nat (n * b)) (Z.to_nat b))). rewrite (F1 (seq (Z.to_nat (n * b) + Z.to_nat b) _)).
  - rewrite app_nil_r. cbn [app]. assert (SH : forall l s, seq s l = map (fun i => s + i)%nat (seq 0 l)).
    { induction l as [|l IH]; intros s; [reflexivity|]. cbn [seq map]. f_equal; [lia|]. rewrite (IH (S s)), <- (seq_shift l 0), map_map. apply map_ext. intros; lia. }
    apply SH.
  - intros r Hr. apply in_seq in Hr. rewrite quot_pos by exact Hb. apply Z.eqb_neq. intros E. assert (b * (Z.of_nat r / b) <= Z.of_nat r < b * (Z.of_nat r / b) + b) by (pose proof (Z.div_mod (Z.of_nat r) b ltac:(lia)); pose proof (Z.mod_pos_bound (Z.of_nat r) b Hb); lia). nia.
  - intros r Hr. apply in_seq in Hr. rewrite quot_pos by exact Hb. apply Z.eqb_eq. symmetry. apply Z.div_unique with (Z.of_nat r - n * b); nia.
  - intros r Hr. apply in_seq in Hr. rewrite quot_pos by exact Hb. apply Z.eqb_neq. intros E. assert (b * (Z.of_nat r / b) <= Z.of_nat r < b * (Z.of_nat r / b) + b) by (pose proof (Z.div_mod (Z.of_nat r) b ltac:(lia)); pose proof (Z.mod_pos_bound (Z.of_nat r) b Hb); lia). nia.
Qed.

Lemma brigade_rank_mod : forall W b B r, 0 < b -> Z.of_nat W = b * B -> (r < W)%nat -> Z.of_nat (brigade_rank W (Some b) r) = Z.of_nat r mod b.
Proof.
  intros W b B r Hb HW Hr. unfold brigade_rank, mpi_brigade. rewrite quot_pos by exact Hb.
  pose proof (Z.div_mod (Z.of_nat r) b ltac:(lia)) as D. pose proof (Z.mod_pos_bound (Z.of_nat r) b Hb) as M. set (n := Z.of_nat r / b) in *. set (o := Z.of_nat r mod b) in *.
  assert (Hn : 0 <= n < B) by nia. rewrite (brigade_members W b B Hb HW n Hn).
  replace (Z.to_nat b) with (Z.to_nat o + (Z.to_nat b - Z.to_nat o))%nat by lia. rewrite seq_app, map_app, filter_app, app_length. cbn [Nat.add].
  assert (F1 : forall l f, (forall r : nat, In r l -> f r = false) -> filter f l = []).
  { induction l as [|x l IH]; intros f H; [reflexivity|]. cbn [filter]. rewrite H by (left; reflexivity). apply IH. intros q Hq. apply H. right. exact Hq. }
  assert (F2 : forall l f, (forall r : nat, In r l -> f r = true) -> filter f l = l).
  { induction l as [|x l IH]; intros f H; [reflexivity|]. cbn [filter]. rewrite H by (left; reflexivity). f_equal. apply IH. intros q Hq. apply H. right. exact Hq. }
  rewrite F2, F1.
  - rewrite map_length, seq_length. cbn [List.length]. lia.
  - intros q Hq. apply in_map_iff in Hq. destruct Hq as [i [<- Hi]]. apply in_seq in Hi. apply Nat.ltb_ge. nia.
  - intros q Hq. apply in_map_iff in Hq. destruct Hq as [i [<- Hi]]. apply in_seq in Hi. apply Nat.ltb_lt. nia.
Qed.

Lemma filter_id : forall K (f : K -> bool) l, (forall x, In x l -> f x = true) -> filter f l = l.
Proof. intros K f. induction l as [|x l IH]; intros H; [reflexivity|]. cbn [filter]. rewrite H by (left; reflexivity). f_equal. apply IH. intros q Hq. apply H. right. exact Hq. Qed.

Lemma filter_le : forall K (f : K -> bool) l, (List.length (filter f l) <= List.length l)%nat.
Proof. intros K f. induction l as [|x l IH]; cbn [filter List.length]; [lia|]. destruct (f x); cbn [List.length]; lia. Qed.

Lemma filter_short : forall K (f : K -> bool) l x, In x l -> f x = false -> (List.length (filter f l) < List.length l)%nat.
Proof.
  intros K f. induction l as [|y l IH]; intros x [].
  - subst y. intros H. cbn [filter List.length]. rewrite H. pose proof (filter_le _ f l). lia.
  - intros Hx. cbn [filter List.length]. destruct (f y); cbn [List.length]; specialize (IH x H Hx); lia.
Qed.

Section MassFacts.
Context {T K Meta : Type}.
Variable G : gridops T.
Variable isnan : K -> bool.

Lemma brigaded_size : forall W bs, brigaded W bs -> 0 < brigades W bs /\ 0 < brigade_size W bs /\ Z.of_nat W = brigade_size W bs * brigades W bs.
Proof.
  intros W bs [HW HP HS]. destruct bs as [b|]; cbn [brigades brigade_size]; [|lia].
  specialize (HP b eq_refl). unfold split_into_brigades in HS. destruct (Z.eqb_spec b 0); [lia|].
  destruct (Z.eqb_spec (Z.of_nat W mod b) 0) as [E|]; [|discriminate]. rewrite quot_pos by exact HP.
  pose proof (Z.div_mod (Z.of_nat W) b ltac:(lia)) as D. rewrite E in D. split; [nia|]. split; [exact HP|]. lia.
Qed.

(** The jobs of a rank are those of its brigade. *)
Definition chunk_of (W : nat) (bs : option Z) (jobs : list (T * T)) (n : nat) : list (T * T) := nth n (cut (section_sizes (List.length jobs) (Z.to_nat (brigades W bs))) jobs) [].

Lemma jobs_chunk : forall W bs r jobs, brigaded W bs -> (r < W)%nat ->
  jobs_on_brigade W bs r jobs = Ok (chunk_of W bs jobs (Z.to_nat (mpi_brigade bs r))) /\ 0 <= mpi_brigade bs r < brigades W bs.
Proof.
  intros W bs r jobs HB Hr. destruct (brigaded_size W bs HB) as [P1 [P2 P3]].
  assert (R : 0 <= mpi_brigade bs r < brigades W bs).
  { destruct bs as [b|]; cbn [mpi_brigade brigades brigade_size] in *; [|lia]. rewrite (quot_pos W b P2) in *. rewrite (quot_pos r b P2). split; [apply Z.div_pos; lia|]. apply Z.div_lt_upper_bound; [lia|]. rewrite <- P3. lia. }
  split; [|exact R]. unfold jobs_on_brigade, chunk_of. destruct (Z.eqb_spec (brigades W bs) 1) as [E|E].
  - rewrite E in *. replace (Z.to_nat (mpi_brigade bs r)) with 0%nat by lia. change (Z.to_nat 1) with 1%nat.
    unfold section_sizes. rewrite Nat.div_1_r, Nat.mod_1_r. cbn [repeat app cut nth Nat.sub]. rewrite firstn_all. reflexivity.
  - unfold chunk_jobs. rewrite array_split_cut by exact P1. cbn [bind]. rewrite (nth_error_nth' _ []); [reflexivity|].
    destruct (array_split_fair _ jobs (brigades W bs) P1) as [parts [E' [L _]]]. rewrite array_split_cut in E' by exact P1. injection E' as E'. rewrite E', L. lia.
Qed.

Lemma chunks_concat : forall W bs jobs, brigaded W bs -> List.concat (map (chunk_of W bs jobs) (seq 0 (Z.to_nat (brigades W bs)))) = jobs.
Proof.
  intros W bs jobs HB. destruct (brigaded_size W bs HB) as [P1 _]. destruct (array_split_fair _ jobs (brigades W bs) P1) as [parts [E [L [[C _] _]]]].
  rewrite array_split_cut in E by exact P1. injection E as E. unfold chunk_of. rewrite E. rewrite <- C. f_equal. rewrite <- L.
  apply nth_ext with (d := []) (d' := []); rewrite map_length, seq_length; [reflexivity|]. intros n Hn.
  rewrite (nth_indep _ [] (nth 0 parts [])) by (rewrite map_length, seq_length; exact Hn). rewrite (map_nth (fun i => nth i parts [])). rewrite seq_nth by exact Hn. reflexivity.
Qed.

Lemma commanders_chunks : forall W bs (h : nat -> list (T * T) -> list (K * Meta)) jobs, brigaded W bs ->
  commanders W bs (map (fun r => h r (chunk_of W bs jobs (Z.to_nat (mpi_brigade bs r)))) (seq 0 W)) =
  Ok (map (fun n => h (Z.to_nat (Z.of_nat n * brigade_size W bs)) (chunk_of W bs jobs n)) (seq 0 (Z.to_nat (brigades W bs)))).
Proof.
  intros W bs h jobs HB. destruct (brigaded_size W bs HB) as [P1 [P2 P3]]. unfold commanders.
  destruct (Z.ltb_spec 1 (brigade_size W bs)) as [H|H].
  - unfold range. rewrite mapM_map, Z.sub_0_r. rewrite <- mapM_pure. apply mapM_ext_in. intros n Hn. apply in_seq in Hn. rewrite Z.add_0_l.
    assert (L : (Z.to_nat (Z.of_nat n * brigade_size W bs) < W)%nat) by nia.
    rewrite (nth_error_nth' _ []) by (rewrite map_length, seq_length; exact L). f_equal.
    set (F := fun r => _). rewrite (nth_indep _ [] (F 0%nat)) by (rewrite map_length, seq_length; exact L). rewrite (map_nth F), seq_nth by exact L. cbn [Nat.add]. unfold F. f_equal. f_equal.
    destruct bs as [b|]; cbn [mpi_brigade brigades brigade_size] in *; [|lia]. rewrite quot_pos by exact P2. rewrite Z2Nat.id by nia. rewrite Z.div_mul by lia. apply Nat2Z.id.
  - assert (E : brigade_size W bs = 1) by lia. rewrite E in *. f_equal. replace (Z.to_nat (brigades W bs)) with W by lia. apply map_ext_in. intros n Hn. apply in_seq in Hn.
    rewrite Z.mul_1_r, Nat2Z.id. f_equal. f_equal. destruct bs as [b|]; cbn [mpi_brigade brigades brigade_size] in *; [|lia]. subst b. rewrite Z.quot_1_r. apply Nat2Z.id.
Qed.

Lemma mass_shape : forall (solve : nat -> T * T -> result (K * Meta)) (g : T * T -> K) (mt : nat -> T * T -> Meta) W bs r k w ks ws, brigaded W bs ->
  brigade_grid G W bs k w = Ok (ks, ws) -> (forall r p, (r < W)%nat -> In p (points ks ws) -> solve r p = Ok (g p, mt r p)) ->
  exists metas, List.length metas = (List.length ks * List.length ws)%nat /\
    mass_greens G isnan solve W bs r k w = (a <- reshape (filter (fun x => negb (isnan x)) (map g (points ks ws))) (List.length ks) (List.length ws) ;; Ok (a, metas)).
Proof.
  intros solve g mt W bs r k w ks ws HB EG F. unfold mass_greens. rewrite EG. cbn [bind].
  assert (CI : forall n p, In p (chunk_of W bs (points ks ws) n) -> In p (points ks ws)).
  { intros n p Hp. destruct (brigaded_size W bs HB) as [P1 _]. destruct (array_split_fair _ (points ks ws) (brigades W bs) P1) as [parts [E [L [[C _] _]]]].
    rewrite array_split_cut in E by exact P1. injection E as E. unfold chunk_of in Hp. rewrite E in Hp. rewrite <- C. apply in_concat. exists (nth n parts []). split; [|exact Hp].
    destruct (nth_in_or_default n parts []) as [X|X]; [exact X|]. rewrite X in Hp. destruct Hp. }
  assert (EP : mapM (fun r => brigade_part solve W bs r ks ws) (seq 0 W) =
               Ok (map (fun r => map (fun p => (g p, mt r p)) (chunk_of W bs (points ks ws) (Z.to_nat (mpi_brigade bs r)))) (seq 0 W))).
  { rewrite <- mapM_pure. apply mapM_ext_in. intros q Hq. apply in_seq in Hq. unfold brigade_part. rewrite jobs_points. cbn [bind].
    rewrite (proj1 (jobs_chunk W bs q _ HB ltac:(lia))). cbn [bind]. rewrite <- mapM_pure. apply mapM_ext_in. intros p Hp. apply F; [lia|]. exact (CI _ _ Hp). }
  rewrite EP. cbn [bind]. rewrite (commanders_chunks W bs (fun r l => map (fun p => (g p, mt r p)) l) _ HB). cbn [bind].
  rewrite flatten_concat. set (fl := List.concat _). exists (map snd fl).
  assert (M : map fst fl = map g (points ks ws)).
  { transitivity (map g (List.concat (map (chunk_of W bs (points ks ws)) (seq 0 (Z.to_nat (brigades W bs)))))); [|rewrite chunks_concat by exact HB; reflexivity].
    unfold fl. rewrite !concat_map, !map_map. f_equal. apply map_ext. intros n. rewrite map_map. reflexivity. }
  split.
  - rewrite map_length, <- (map_length fst), M, map_length. unfold points. apply prod_length.
  - rewrite M. reflexivity.
Qed.
End MassFacts.
