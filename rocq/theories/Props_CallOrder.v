(** Property theorem C82: the order of the add_ calls, and calls with coupling 0. *)
From Coq Require Import String ZArith List Bool Lia Permutation Reals Lra.
From Verif Require Import Base NdArray Config Spec Model HModel Space Spec_space Term Equation System Spec_engine Props_Engine
  Ring Coef Spec_eom Solvers Spec_solve LinSolve Spec_model Spec_sym Cplx Physics Props_Physics Props_Model Props_Solve Props_Sym Spec_spectral Props_Spectral Spec_calls.
From Verif Require HModel_proofs Physics_proofs CallOrder_proofs.
Import ListNotations.
Open Scope list_scope.
Open Scope Z_scope.

(** In any arithmetic: dropping calls whose coupling vanishes, and any order. *)
Theorem C82_any : forall T (K : cring) (N : numops T) (e : env T K), (forall x, ev e (n_opp N x) = kopp (ev e x)) -> (forall x y, n_eqb N x y = n_eqb N y x) -> additive e ->
  forall temp hop lat mps l idle l' m', Permutation l' (l ++ idle) -> (forall a, In a l' -> a_override a = None) -> Spec_model.distinct N (given_freqs N temp l') ->
  accepts N (from_parameters hop lat temp mps 1) l' m' ->
  (forall a, In a idle -> exists z, a_cs a = Some z /\ forall V, ev e (n_mul N z V) = k0) -> within l idle ->
  exists m, accepts N (from_parameters hop lat temp mps 1) l m /\
    forall ae ae' ord ord' sp, good_model m ae -> good_model m' ae' -> (forall k l, Permutation (ord k l) l) -> (forall k l, Permutation (ord' k l) l) -> spsolve_ok sp ->
    regular_at e ord m -> regular_at e ord' m' -> exists g, greens e sp ord m = Ok g /\ greens e sp ord' m' = Ok g.
Proof.
  intros T K N e EO Sy AD temp hop lat mps l idle l' m' P Ov D A Z0 Wi.
  destruct (CallOrder_proofs.idle_core N lat temp hop mps 1 e EO Sy l idle l' m' P Ov D A Z0 Wi) as [m [Am [[w PO] [Ex _]]]]. exists m. split; [exact Am|].
  intros ae ae' ord ord' sp G G' Po Po' SO R R'. destruct (C48_part T K e w m m' ae' ae ord' ord sp G' G PO AD) as [g [E1 E2]]; try assumption.
  - pose proof (Ex ae' (gm_ae _ _ G')) as E. rewrite (gm_ae _ _ G) in E. injection E as ->. intros a. reflexivity.
  - exists g. auto.
Qed.
Print Assumptions C82_any.

(** The reals: idle calls can be dropped. *)
Theorem C82_idle : forall hop lat temp mps l idle l' m', Permutation l' (l ++ idle) -> (forall a, In a l' -> a_override a = None) -> Spec_model.distinct Rnum (given_freqs Rnum temp l') ->
  accepts Rnum (from_parameters hop lat temp mps 1) l' m' -> (forall a, In a idle -> a_cs a = Some 0%R) -> within l idle ->
  exists m, accepts Rnum (from_parameters hop lat temp mps 1) l m /\
    (well_posed hop lat mps l -> well_posed hop lat mps l' -> forall ord ord' sp k w eta, (forall k l, Permutation (ord k l) l) -> (forall k l, Permutation (ord' k l) l) -> spsolve_ok sp -> (0 < eta)%R ->
     exists g : C, greens (phys_env m k w eta) sp ord m = Ok g /\ greens (phys_env m' k w eta) sp ord' m' = Ok g).
Proof.
  intros hop lat temp mps l idle l' m' P Ov D A Z0 Wi.
  assert (Sy : forall x y, n_eqb Rnum x y = n_eqb Rnum y x) by (intros x y; cbn [Rnum n_eqb]; destruct (Req_EM_T x y), (Req_EM_T y x); try reflexivity; subst; contradiction).
  assert (EO : forall k w eta x, ev (phys_env m' k w eta) (n_opp Rnum x) = kopp (ev (phys_env m' k w eta) x)) by (intros k w eta x; cbn [phys_env ev Rnum n_opp]; change (RtoC (- x) = Copp (RtoC x)); apply Ceq; unfold RtoC, Copp, Re, Im; cbn [fst snd]; ring).
  assert (Zr : forall k w eta a, In a idle -> exists z, a_cs a = Some z /\ forall V, ev (phys_env m' k w eta) (n_mul Rnum z V) = k0).
  { intros k w eta a Ha. exists 0%R. split; [exact (Z0 a Ha)|]. intros V. cbn [phys_env ev Rnum n_mul]. rewrite Rmult_0_l. reflexivity. }
  destruct (CallOrder_proofs.idle_core Rnum lat temp hop mps 1 (phys_env m' 0 0 0) (EO 0 0 0)%R Sy l idle l' m' P Ov D A (Zr 0 0 0)%R Wi)
    as [m [Am [_ [Ex [B [B' [D1 [[L1 [L2 [H1 H2]]] [M1 [M2 [X1 X2]]]]]]]]]]].
  exists m. split; [exact Am|]. intros W W' ord ord' sp k w eta Po Po' SO He.
  assert (EE : phys_env m k w eta = phys_env m' k w eta) by (unfold phys_env; rewrite L1, L2, H1, H2; reflexivity).
  destruct (C82_any R CR Rnum (phys_env m' k w eta) (EO k w eta) Sy (C48_additive m' k w eta) temp hop lat mps l idle l' m' P Ov D A (Zr k w eta) Wi) as [m2 [Am2 X]].
  assert (m2 = m) as -> by exact (Double_proofs.accepts_det Rnum l _ _ _ Am2 Am).
  assert (Gd : forall l m, well_posed hop lat mps l -> built Rnum 1 m (given_freqs Rnum temp l) (map a_type l) -> Spec_model.distinct Rnum (given_freqs Rnum temp l) -> m_mps m = mps -> m_aext m = None -> exists ae, good_model m ae).
  { intros l0 m0 W0 B0 D0 Mm Ma. destruct W0 as [N0 Ty Mp _]. apply (HModel_proofs.built_good Rnum (proj1 Rnum_ok) m0 _ _ B0).
    - destruct l0; [contradiction|discriminate].
    - exact D0.
    - rewrite Mm. exact Mp.
    - rewrite Ma. discriminate.
    - destruct Ty as [Ty|Ty]; [left|right]; intros c Hc; apply in_map_iff in Hc; destruct Hc as [a [<- Ha]]; apply Ty; exact Ha. }
  destruct (Gd l m W B D1 M1 X1) as [ae G]. destruct (Gd l' m' W' B' D M2 X2) as [ae' G'].
  assert (Rg : forall l m ae ord, well_posed hop lat mps l -> built Rnum 1 m (given_freqs Rnum temp l) (map a_type l) -> good_model m ae -> m_lattice m = lat -> h_hop (m_ham m) = hop ->
    (forall k l, Permutation (ord k l) l) -> regular_at (phys_env m k w eta) ord m).
  { intros l0 m0 ae0 ord0 W0 B0 G0' El Eh Pp. destruct (C50_lattice m0 _ _ ae0 B0 G0') as [c L]. apply (C52_regular m0 ae0 c ord0 k w eta G0' (C51_hermitian m0 _ _ ae0 k w eta B0 G0') L); try assumption.
    unfold exact_lattice. rewrite El, Eh. exact (wp_lattice _ _ _ _ W0). }
  rewrite EE. apply (X ae ae' ord ord' sp G G' Po Po' SO); [rewrite <- EE; exact (Rg l m ae ord W B G L1 H1 Po)|exact (Rg l' m' ae' ord' W' B' G' L2 H2 Po')].
Qed.
Print Assumptions C82_idle.

(** The order of the calls does not matter. *)
Theorem C82_order : forall hop lat temp mps l l' m', Permutation l' l -> (forall a, In a l' -> a_override a = None) -> Spec_model.distinct Rnum (given_freqs Rnum temp l') ->
  accepts Rnum (from_parameters hop lat temp mps 1) l' m' ->
  exists m, accepts Rnum (from_parameters hop lat temp mps 1) l m /\
    (well_posed hop lat mps l' -> forall ord ord' sp k w eta, (forall k l, Permutation (ord k l) l) -> (forall k l, Permutation (ord' k l) l) -> spsolve_ok sp -> (0 < eta)%R ->
     exists g : C, greens (phys_env m k w eta) sp ord m = Ok g /\ greens (phys_env m' k w eta) sp ord' m' = Ok g).
Proof.
  intros hop lat temp mps l l' m' P Ov D A.
  destruct (C82_idle hop lat temp mps l [] l' m' ltac:(rewrite app_nil_r; exact P) Ov D A ltac:(intros a []) ltac:(intros a [])) as [m [Am X]]. exists m. split; [exact Am|].
  intros W. apply X; [|exact W]. destruct W as [N0 Ty Mp La]. constructor; try assumption.
  - intros ->. apply N0. apply Permutation_sym in P. exact (Permutation_nil P).
  - destruct Ty as [Ty|Ty]; [left|right]; intros a Ha; apply Ty; exact (Permutation_in _ (Permutation_sym P) Ha).
Qed.
Print Assumptions C82_order.

(** A call with coupling 0 and a larger extent does change the result: it raises the
    absolute extent of the clouds of the other types. *)
Definition pair_calls : list (add_args Z) := [tcall "Holstein" 3 1 1 1 None None; tcall "Holstein" 5 1 1 1 None None].
Definition wide_call : add_args Z := tcall "Holstein" 7 0 2 1 None None.
Theorem C82_extent_refuted : exists (e : env Z Qcf) l a m m', additive e /\ a_cs a = Some 0 /\ (forall V, ev e (n_mul Z0num 0 V) = k0) /\
  Spec_model.distinct Z0num (given_freqs Z0num 0 (l ++ [a])) /\ accepts Z0num (from_parameters 1 1 0 None 1) l m /\ accepts Z0num (from_parameters 1 1 0 None 1) (l ++ [a]) m' /\
  good_model m 1 /\ good_model m' 2 /\ regular_at e id_ord m /\ regular_at e id_ord m' /\
  exists g g', g <> g' /\ forall sp, spsolve_ok sp -> greens e sp id_ord m = Ok g /\ greens e sp id_ord m' = Ok g'.
Proof.
  pose (m := made Z0num 0 pair_calls). pose (m' := made Z0num 0 (pair_calls ++ [wide_call])).
  assert (X : good_model m 1 /\ accepts Z0num (from_parameters 1 1 0 None 1) pair_calls m /\ built Z0num 1 m [3; 5] ["Holstein"; "Holstein"]%string) by (made_good Z0num Z0num_ok 0 pair_calls 1).
  assert (X' : good_model m' 2 /\ accepts Z0num (from_parameters 1 1 0 None 1) (pair_calls ++ [wide_call]) m' /\ built Z0num 1 m' [3; 5; 7] ["Holstein"; "Holstein"; "Holstein"]%string) by (made_good Z0num Z0num_ok 0 (pair_calls ++ [wide_call]) 2).
  destruct X as [G [A _]], X' as [G' [A' _]]. exists (d_env 1), pair_calls, wide_call, m, m'. split; [apply d_additive|]. split; [reflexivity|]. split; [reflexivity|]. split; [vm_compute; repeat constructor|].
  split; [exact A|]. split; [exact A'|]. split; [exact G|]. split; [exact G'|].
  destruct (fast_value (d_env 1) m 1 (q 4013 3677) G) as [R V]; [vm_compute; reflexivity|].
  destruct (fast_ok (d_env 1) m' 2 (fun g => negb (qb g (q 4013 3677))) G') as [R' [g [Ng V']]]; [vm_compute; reflexivity|].
  split; [exact R|]. split; [exact R'|]. exists (q 4013 3677), g. split.
  - intros E. rewrite <- E in Ng. vm_compute in Ng. discriminate Ng.
  - intros sp SO. split; [apply V; exact SO|apply V'; exact SO].
Qed.
Print Assumptions C82_extent_refuted.

(** Holstein and Peierls, in both orders and with a third, uncoupled type. *)
Definition third_call : add_args Z := tcall "Holstein" 7 0 1 1 None None.
Example C82_nonvacuous : let e := d_env 1 in let m := made Z0num 0 two in let m1 := made Z0num 0 (rev two) in let m2 := made Z0num 0 (third_call :: two) in
  (forall x, ev e (n_opp Z0num x) = kopp (ev e x)) /\ (forall x y, n_eqb Z0num x y = n_eqb Z0num y x) /\ additive e /\ within two [third_call] /\
  Spec_model.distinct Z0num (given_freqs Z0num 0 (third_call :: two)) /\ accepts Z0num (from_parameters 1 1 0 None 1) (third_call :: two) m2 /\
  h_terms (m_ham m1) <> h_terms (m_ham m) /\
  regular_at e id_ord m /\ regular_at e id_ord m1 /\ regular_at e id_ord m2 /\
  forall sp, spsolve_ok sp -> greens e sp id_ord m = Ok two_value /\ greens e sp id_ord m1 = Ok two_value /\ greens e sp id_ord m2 = Ok two_value.
Proof.
  intros e m m1 m2.
  assert (X : good_model m 1 /\ accepts Z0num (from_parameters 1 1 0 None 1) two m /\ built Z0num 1 m [3; 5] ["Holstein"; "Peierls"]%string) by (made_good Z0num Z0num_ok 0 two 1).
  assert (X1 : good_model m1 1 /\ accepts Z0num (from_parameters 1 1 0 None 1) (rev two) m1 /\ built Z0num 1 m1 [5; 3] ["Peierls"; "Holstein"]%string) by (made_good Z0num Z0num_ok 0 (rev two) 1).
  assert (X2 : good_model m2 1 /\ accepts Z0num (from_parameters 1 1 0 None 1) (third_call :: two) m2 /\ built Z0num 1 m2 [7; 3; 5] ["Holstein"; "Holstein"; "Peierls"]%string) by (made_good Z0num Z0num_ok 0 (third_call :: two) 1).
  destruct X as [G _], X1 as [G1 _], X2 as [G2 [A2 _]].
  split; [intros x; exact (q_opp x)|]. split; [intros x y; apply Z.eqb_sym|]. split; [apply d_additive|]. split.
  { intros a [<-|[]]. exists (hd third_call two). split; [left; reflexivity|]. cbn. lia. }
  split; [vm_compute; repeat constructor|]. split; [exact A2|]. split; [vm_compute; discriminate|].
  destruct (fast_value e m 1 two_value G) as [R V]; [vm_compute; reflexivity|]. destruct (fast_value e m1 1 two_value G1) as [R1 V1]; [vm_compute; reflexivity|]. destruct (fast_value e m2 1 two_value G2) as [R2 V2]; [vm_compute; reflexivity|].
  split; [exact R|]. split; [exact R1|]. split; [exact R2|]. intros sp SO. split; [apply V; exact SO|]. split; [apply V1; exact SO|apply V2; exact SO].
Qed.

(** On the reals: a Holstein call and an uncoupled Peierls call. *)
Definition r_live : add_args R := mkAdd "Holstein" 1%R 2 3 None None (Some 1%R) None None.
Definition r_idle : add_args R := mkAdd "Peierls" 2%R 1 1 None None (Some 0%R) None None.
Example C82_physical_nonvacuous : exists m', accepts Rnum (from_parameters 1%R 1%R 0%R None 1) [r_idle; r_live] m' /\ Permutation [r_idle; r_live] ([r_live] ++ [r_idle]) /\
  (forall a, In a [r_idle; r_live] -> a_override a = None) /\ Spec_model.distinct Rnum (given_freqs Rnum 0%R [r_idle; r_live]) /\ (forall a, In a [r_idle] -> a_cs a = Some 0%R) /\
  within [r_live] [r_idle] /\ well_posed 1 1 None [r_live] /\ well_posed 1 1 None [r_idle; r_live].
Proof.
  assert (F : given_freqs Rnum 0%R [r_idle; r_live] = [2; 1]%R) by (unfold given_freqs; cbn [flat_map Rnum n_ltb n_0]; destruct (Rlt_dec 0 0) as [H|_]; [lra|]; reflexivity).
  assert (D : Spec_model.distinct Rnum [2; 1]%R) by (unfold Spec_model.distinct; repeat constructor; cbn [Rnum n_eqb]; destruct (Req_EM_T 1 2); [lra|reflexivity]).
  assert (Gv : forall a g, a = r_live /\ g = 1%R \/ a = r_idle /\ g = 0%R -> CallOrder_proofs.gives Rnum 1%R 0%R 1%R None 1 a [CallOrder_proofs.mkEnt (a_type a) (a_freq a) (a_M a) (a_N a) (g * 1)%R]).
  { intros a g Ha. unfold CallOrder_proofs.gives. cbv zeta. unfold tfd_prefactors. cbn [Rnum n_ltb n_0 n_1]. destruct (Rlt_dec 0 0) as [H|_]; [lra|].
    destruct Ha as [[-> ->]|[-> ->]]; (split; [reflexivity|split; [|split; [intros g0 i f; discriminate|eexists; split; [reflexivity|reflexivity]]]]);
    (constructor; [cbn [CallOrder_proofs.model_of m_temp Rnum n_ltb n_0]; destruct (Rlt_dec 0 0) as [H|_]; [lra|discriminate]|cbn; lia|cbn; lia|discriminate|discriminate|right; split; [discriminate|reflexivity]|discriminate]). }
  eexists. split.
  - refine (CallOrder_proofs.gives_calls Rnum 1%R 0%R 1%R None 1 [r_idle; r_live] [_; _] [] _ _); [constructor; [apply (Gv r_idle 0%R); auto|constructor; [apply (Gv r_live 1%R); auto|constructor]]|exact D].
  - split; [apply perm_swap|]. split; [intros a [<-|[<-|[]]]; reflexivity|]. split; [rewrite F; exact D|]. split; [intros a [<-|[]]; reflexivity|].
    split; [intros a [<-|[]]; exists r_live; split; [left; reflexivity|cbn; lia]|].
    split; (constructor; [discriminate|right|discriminate|left; reflexivity]); [intros a [<-|[]]; discriminate|intros a [<-|[<-|[]]]; discriminate].
Qed.
