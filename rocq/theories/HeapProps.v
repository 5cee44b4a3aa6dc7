(** C131-C133: the memory of [Matrix<T>]. *)
From Coq Require Import List Arith ZArith NArith Bool Lia ZifyBool ZifyNat ZifyN.
From Verif Require Import PidModel MatModel ViewModel ViewSpec HeapModel HeapSpec HeapProofs HeapProofs2 HeapProofs3 HeapProofs4 HeapProofs5 HeapProofs6 HeapProofs7.
Import ListNotations.
Open Scope nat_scope.

(** C131, C132: every program, for entries with or without a destructor, does what the reference semantics says: it completes with
    the right entries in the variables and no other block allocated, panics, or is undefined, exactly as the reference semantics has it. *)
Theorem C131_programs {T} {O : Ops T} (nd : bool) (prog : list (stmt T)) : agree (run nd prog) (srun nd prog).
Proof. apply run_ok. Qed.

(** The statement creates a matrix from an operand without rows or without columns. *)
Definition from_nothing {T} (st : sstate T) (s : stmt T) : Prop :=
  match s with
  | SAsMatrix a | SScale a _ => exists A, sshared st a = SOk A /\ sm_h A * sm_w A = 0
  | SAdd a b | SSub a b => exists A B, sshared st a = SOk A /\ sshared st b = SOk B /\ sm_h A * sm_w A = 0
  | SMul a b => exists A B, sshared st a = SOk A /\ sshared st b = SOk B /\ sm_h A * sm_w B = 0
  | _ => False
  end.
Lemma make_undef {T} nd (st : sstate T) asg n m f : make nd st asg n m f = SUndef -> n * m = 0 \/ asg && nd = true.
Proof.
  unfold make, sized. destruct (n * m =? 0) eqn:Z; [left; lia|]. destruct (_ && _); [|discriminate]. cbn [obnd]. destruct (asg && nd); [now right|discriminate].
Qed.
Lemma change_defined {T} (st : sstate T) a ok g : (forall V, ok V <> SUndef) -> change st a ok g <> SUndef.
Proof.
  intros H. unfold change, sview, svar. destruct (nth_error _ _) as [[M|]|]; cbn [obnd]; try discriminate. destruct (rv_run _ _) as [r|]; cbn [obnd]; [|discriminate].
  pose proof (H (look M r)). destruct (ok (look M r)); cbn [obnd]; congruence.
Qed.
Lemma shared_defined {T} (st : sstate T) a : sshared st a <> SUndef.
Proof. destruct a as [x ops]. cbn. unfold sview, svar. destruct (nth_error _ _) as [[M|]|]; cbn [obnd]; try discriminate. destruct (rv_run _ _); discriminate. Qed.
(** C131: for entries without destructor the only undefined programs are those that create a matrix from an operand without rows or columns. *)
Theorem C131_undefined_only_if_empty {T} {O : Ops T} (prog : list (stmt T)) : run false prog = Undef ->
  srun false prog = SBig \/ exists pre s post st, prog = pre ++ s :: post /\ srun false pre = SOk st /\ from_nothing st s.
Proof.
  intros E. pose proof (run_ok false prog) as K. rewrite E in K. destruct (srun false prog) eqn:S; cbn in K; try contradiction; [|now left]. right. clear E K.
  unfold srun in *. revert S. generalize (@SState T [] 0). induction prog as [|s prog IH]; intros st S; cbn [srun_from] in S; [discriminate|].
  destruct (sstep false st s) as [st'| | | |] eqn:E; cbn [obnd] in S; try discriminate.
  - destruct (IH st' S) as (pre & s' & post & st2 & -> & E2 & F). exists (s :: pre), s', post, st2. split; [reflexivity|]. split; [|exact F]. cbn [srun_from]. now rewrite E.
  - exists [], s, prog, st. split; [reflexivity|]. split; [reflexivity|]. clear S IH.
    assert (SH : forall a (k : smat T -> outcome (sstate T)), (ds A <- sshared st a; k A) = SUndef -> exists A, sshared st a = SOk A /\ k A = SUndef).
    { intros a k Q. pose proof (shared_defined st a). destruct (sshared st a); cbn [obnd] in Q; try discriminate; [eauto|congruence]. }
    assert (MK : forall asg n m f, make false st asg n m f = SUndef -> n * m = 0).
    { intros asg n m f Q. apply make_undef in Q. rewrite andb_false_r in Q. destruct Q; [assumption|discriminate]. }
    assert (PU : forall b (k : unit -> outcome (sstate T)), (ds u <- panic_unless b; k u) = SUndef -> b = true /\ k tt = SUndef).
    { intros [|] k Q; cbn in Q; [now split|discriminate]. }
    destruct s; cbn [sstep from_nothing] in *.
    + destruct v as [|[|y r0] v]; [discriminate..|]. unfold make, sized in E. replace (length ((y :: r0) :: v) * length (y :: r0) =? 0) with false in E by (cbn; nia).
      destruct (_ && _); cbn [obnd] in E; [|discriminate]. destruct (forallb _ _); discriminate.
    + apply PU in E. destruct E as [E1 E]. apply MK in E. nia.
    + apply PU in E. destruct E as [E1 E]. apply MK in E. nia.
    + apply SH in E. destruct E as (A & EA & E). apply MK in E. eauto.
    + apply SH in E. destruct E as (A & EA & E). apply SH in E. destruct E as (B & EB & E). apply PU in E. destruct E as [E1 E]. apply MK in E. eauto.
    + apply SH in E. destruct E as (A & EA & E). apply SH in E. destruct E as (B & EB & E). apply PU in E. destruct E as [E1 E]. apply MK in E. eauto.
    + apply SH in E. destruct E as (A & EA & E). apply SH in E. destruct E as (B & EB & E). exists A, B. split; [exact EA|]. split; [exact EB|].
      destruct (sm_h A * sm_w B =? 0) eqn:Z; [lia|]. unfold sized in E. rewrite Z in E. destruct ((N.of_nat _ <? _)%N && _); cbn [obnd] in E; [|discriminate].
      apply PU in E. destruct E as [E1 E]. now apply MK in E.
    + apply SH in E. destruct E as (A & EA & E). apply MK in E. eauto.
    + revert E. apply change_defined. intros V. unfold panic_unless. destruct (_ && _); discriminate.
    + destruct b as [y ops]. cbn [sapart] in E. destruct (x =? y); [discriminate|]. cbn [obnd] in E. apply SH in E. destruct E as (B & EB & E).
      revert E. apply change_defined. intros V. unfold panic_unless. destruct (same_size _ _); discriminate.
    + destruct b as [y ops]. cbn [sapart] in E. destruct (x =? y); [discriminate|]. cbn [obnd] in E. apply SH in E. destruct E as (B & EB & E).
      revert E. apply change_defined. intros V. unfold panic_unless. destruct (same_size _ _); discriminate.
    + revert E. apply change_defined. discriminate.
    + destruct b as [y ops]. cbn [sapart] in E. destruct (_ =? y); [discriminate|]. cbn [obnd] in E. apply SH in E. destruct E as (B & EB & E).
      revert E. apply change_defined. intros V. unfold panic_unless. destruct (same_size _ _); discriminate.
    + revert E. apply change_defined. intros V. unfold panic_unless. destruct (_ || _); discriminate.
    + revert E. apply change_defined. intros V. unfold panic_unless. destruct (_ || _); discriminate.
    + revert E. apply change_defined. intros V. unfold panic_unless. destruct (_ && _); [|discriminate]. cbn [obnd undef_if_destructor]. destruct (_ <? _); discriminate.
    + revert E. apply change_defined. intros V. unfold panic_unless. destruct (_ && _); [|discriminate]. cbn [obnd undef_if_destructor]. destruct (_ <? _); discriminate.
    + unfold svar in E. destruct (nth_error _ _) as [[M|]|]; discriminate.
    + unfold svar in E. destruct (nth_error _ _) as [[M|]|]; discriminate.
Qed.
(** C131: when all variables are gone, all memory has been freed. *)
Theorem C131_no_leak {T} {O : Ops T} nd (prog : list (stmt T)) m : run nd prog = Ok m -> srun nd prog <> SBig -> Forall (fun o => o = None) (m_vars m) ->
  Forall (fun b => b = None) (h_blocks (m_heap m)).
Proof.
  intros E NB H. pose proof (run_ok nd prog) as K. rewrite E in K. destruct (srun nd prog) as [st| | | |]; cbn in K; try contradiction.
  destruct K as (_ & LV & _). assert (Z : living (m_vars m) = 0). { revert H. generalize (m_vars m). induction 1 as [|o l -> _ IH]; [reflexivity|exact IH]. }
  rewrite Z in LV. revert LV. generalize (h_blocks (m_heap m)). induction l as [|[b|] l IH]; intros Q; [constructor|cbn in Q; discriminate|]. constructor; [reflexivity|]. now apply IH.
Qed.
(** C131: false for matrices without entries: [x[(0..0, ..)].as_matrix()] asks the allocator for no bytes. *)
Theorem C131_empty_refuted : exists prog : list (stmt Z), run false prog = Undef /\ srun false prog <> SBig /\
  exists pre, prog = pre ++ [SAsMatrix (Opd 0 [VSub (RRange 0 0) RFull])] /\ exists m, run false pre = Ok m.
Proof.
  exists ([SFromArray [[1; 2]; [3; 4]]%Z] ++ [SAsMatrix (Opd 0 [VSub (RRange 0 0) RFull])]). split; [vm_compute; reflexivity|]. split; [vm_compute; discriminate|].
  eexists. split; [reflexivity|]. eexists. vm_compute. reflexivity.
Qed.
(** A program with views, changes in place, a transposition, and freeing. *)
Definition demo : list (stmt Z) :=
  [SFromArray [[1; 2; 3]; [4; 5; 6]]; SMul (Opd 0 []) (Opd 0 [VTranspose]); SRowOp (Place 0 [(RIndex 1, RFrom 1)]) 0 0 10; STranspose 0;
   SSwapRows (Place 0 []) 0 2; SAsMatrix (Opd 0 [VSub (RTo 2) RFull; VTranspose]); SAddAssign 1 (Opd 2 []); SDrop 0; SScale (Opd 1 []) 2; SDrop 1]%Z.
Example C131_witness : exists m st, run false demo = Ok m /\ srun false demo = SOk st /\
  map (fun M => option_map (fun M => map (fun i => map (sm_f M i) (seq 0 (sm_w M))) (seq 0 (sm_h M))) M) (s_vars st) =
    [None; None; Some [[3; 2]; [66; 55]]; Some [[34; 68]; [196; 264]]]%Z /\
  map (fun o => match o with Some o => Some (mapR (fun ij => rd (m_heap m) (deref o) (fst ij) (snd ij)) (cells 2 2)) | None => None end) (m_vars m) =
    [None; None; Some (Ok [3; 2; 66; 55]); Some (Ok [34; 68; 196; 264])]%Z /\
  map (fun b => match b with Some _ => true | None => false end) (h_blocks (m_heap m)) = [false; false; false; true; true].
Proof. eexists. eexists. split; [vm_compute; reflexivity|]. split; [cbv; reflexivity|]. split; [vm_compute; reflexivity|]. split; vm_compute; reflexivity. Qed.

(** C132: entries with a destructor.  The statements that put entries into fresh memory by assignment. *)
Definition assigns_fresh {T} (s : stmt T) : bool :=
  match s with SFromArray _ | SAdd _ _ | SSub _ _ | SMul _ _ | SScale _ _ | SRowOp _ _ _ _ | SColOp _ _ _ _ => true | _ => false end.
(** No program that contains one of them completes ... *)
Theorem C132_operators_refuted {T} {O : Ops T} (prog : list (stmt T)) : existsb assigns_fresh prog = true -> srun true prog <> SBig -> forall m, run true prog <> Ok m.
Proof.
  intros H NB m E. pose proof (run_ok true prog) as K. rewrite E in K. destruct (srun true prog) as [st'| | | |] eqn:S; cbn in K; try contradiction.
  clear - H S. unfold srun in S. revert S. generalize (@SState T [] 0). induction prog as [|s prog IH]; [discriminate|]. cbn [existsb srun_from] in *. intros st S.
  destruct (sstep true st s) as [st2| | | |] eqn:E; cbn [obnd] in S; try discriminate.
  destruct (assigns_fresh s) eqn:A; [|now apply (IH H st2)]. clear - E A. destruct s; try discriminate A; cbn [sstep] in E.
  - destruct v as [|[|y r0] v]; try discriminate. destruct (sized _ _); discriminate.
  - destruct (sshared st a); try discriminate. cbn [obnd] in E. destruct (sshared st b); try discriminate. cbn [obnd] in E. destruct (panic_unless _); try discriminate. cbn [obnd] in E.
    unfold make in E. destruct (sized _ _); discriminate.
  - destruct (sshared st a); try discriminate. cbn [obnd] in E. destruct (sshared st b); try discriminate. cbn [obnd] in E. destruct (panic_unless _); try discriminate. cbn [obnd] in E.
    unfold make in E. destruct (sized _ _); discriminate.
  - destruct (sshared st a); try discriminate. cbn [obnd] in E. destruct (sshared st b); try discriminate. cbn [obnd] in E. unfold make in E. destruct (sized _ _); try discriminate. cbn [obnd] in E.
    destruct (panic_unless _); discriminate.
  - destruct (sshared st a); try discriminate. cbn [obnd] in E. unfold make in E. destruct (sized _ _); discriminate.
  - unfold change in E. destruct (sview _ _ _) as [[M r]| | | |]; try discriminate. cbn [obnd undef_if_destructor] in E. destruct (panic_unless _); discriminate.
  - unfold change in E. destruct (sview _ _ _) as [[M r]| | | |]; try discriminate. cbn [obnd undef_if_destructor] in E. destruct (panic_unless _); discriminate.
Qed.
(** ... and on good arguments it is undefined. *)
Theorem C132_from_array_refuted {T} {O : Ops T} (prog : list (stmt T)) m v n k : run true prog = Ok m -> length v = n -> Forall (fun r => length r = k) v -> 0 < n -> 0 < k ->
  small (n, k) -> step true m (SFromArray v) = Undef.
Proof.
  intros _ En Fk Hn Hk Hs. destruct v as [|[|y r0] v]; [cbn in En; lia|inversion Fk; cbn in *; lia|]. cbn [step].
  pose proof (from_array_ok true (m_heap m) y r0 v) as F. cbv zeta in F. inversion Fk as [|? ? E1 _]. subst. now rewrite F.
Qed.
(** The programs without them are sound (C131_programs), but the entries of a dropped matrix are never destroyed. *)
Theorem C132_leak_refuted {T} {O : Ops T} n k : 0 < n -> 0 < k -> small (n, k) -> exists m, run true [SZero n k; SDrop 0] = Ok m /\ h_lost (m_heap m) = n * k.
Proof.
  intros Hn Hk [S1 S2]. pose proof (run_ok true [@SZero T n k; SDrop 0]) as K. cbn [fst snd] in S1, S2. unfold srun in K. cbn [srun_from sstep obnd] in K.
  replace ((0 <? n) && (0 <? k)) with true in K by lia. cbn [panic_unless obnd] in K. unfold make, sized in K. replace (n * k =? 0) with false in K by nia.
  replace ((N.of_nat n <? 2 ^ 16)%N && (N.of_nat k <? 2 ^ 16)%N) with true in K by lia. cbn [obnd andb svar s_vars nth_error app sm_h sm_w s_lost lset] in K.
  destruct (run true _) as [m| | |]; try contradiction. exists m. split; [reflexivity|]. destruct K as (_ & _ & K). exact K.
Qed.
Example C132_witness : exists m, run true [@SIdentity Z 2; SAsMatrix (Opd 0 [VSub RFull (RIndex 1)]); SSet (Place 1 []) 0 0 7%Z; SSwapRows (Place 1 []) 0 1; SDrop 0] = Ok m /\
  h_lost (m_heap m) = 4 /\ map (fun o => match o with Some o => Some (mapR (fun ij => rd (m_heap m) (deref o) (fst ij) (snd ij)) (cells 2 1)) | None => None end) (m_vars m) =
    [None; Some (Ok [1; 7]%Z)] /\ existsb assigns_fresh [@SIdentity Z 2; SScale (Opd 0 []) 3%Z] = true.
Proof. eexists. split; [vm_compute; reflexivity|]. repeat split; vm_compute; reflexivity. Qed.

(** C133: comparing two views compares the sizes and all entries, in any state a program reaches. *)
Theorem C133_views {T} {O : Ops T} (eqb : T -> T -> bool) nd (prog : list (stmt T)) m st a b A B : run nd prog = Ok m -> srun nd prog = SOk st -> sshared st a = SOk A -> sshared st b = SOk B ->
  exists q r, shared m a = Ok q /\ shared m b = Ok r /\ exists c, equal eqb (m_heap m) q r = Ok c /\
    (c = true <-> sm_h A = sm_h B /\ sm_w A = sm_w B /\ forall i j, i < sm_h A -> j < sm_w A -> eqb (sm_f A i j) (sm_f B i j) = true).
Proof.
  intros E S EA EB. assert (I : inv m st). { pose proof (run_inv nd prog) as K. rewrite E, S in K. exact K. }
  pose proof (shared_ok m st a I) as KA. rewrite EA in KA. destruct KA as (q & _ & Eq & _ & _ & HA).
  pose proof (shared_ok m st b I) as KB. rewrite EB in KB. destruct KB as (r & _ & Er & _ & _ & HB). exists q, r. split; [exact Eq|]. split; [exact Er|].
  now apply equal_ok.
Qed.
Theorem C133_matrices {T} {O : Ops T} (eqb : T -> T -> bool) nd (prog : list (stmt T)) m st x y A B : run nd prog = Ok m -> srun nd prog = SOk st ->
  nth_error (s_vars st) x = Some (Some A) -> nth_error (s_vars st) y = Some (Some B) ->
  exists o o', var m x = Ok o /\ var m y = Ok o' /\ exists c, equal_matrices eqb (m_heap m) o o' = Ok c /\
    (c = true <-> sm_h A = sm_h B /\ sm_w A = sm_w B /\ forall i j, i < sm_h A -> j < sm_w A -> eqb (sm_f A i j) (sm_f B i j) = true).
Proof.
  intros E S EA EB. assert (I : inv m st). { pose proof (run_inv nd prog) as K. rewrite E, S in K. exact K. }
  pose proof (var_ok m st x I) as KA. unfold svar in KA. rewrite EA in KA. destruct KA as (o & L & Eo & _ & _ & G & Es & Eh & Ew & HBl).
  pose proof (var_ok m st y I) as KB. unfold svar in KB. rewrite EB in KB. destruct KB as (o' & L' & Eo' & _ & _ & G' & Es' & Eh' & Ew' & HBl').
  exists o, o'. split; [exact Eo|]. split; [exact Eo'|]. unfold equal_matrices. apply equal_ok.
  - destruct o as [bb sh]. cbn in *. subst sh. pose proof (opnd_owned _ _ _ _ G HBl) as K. rewrite Eh, Ew in K. now destruct A.
  - destruct o' as [bb sh]. cbn in *. subst sh. pose proof (opnd_owned _ _ _ _ G' HBl') as K. rewrite Eh', Ew' in K. now destruct B.
Qed.
(** Comparing a view with a matrix never returns. *)
Theorem C133_view_matrix_refuted {T} (eqb : T -> T -> bool) (h : heap T) (a : href) (o : owned) : forall fuel, equal_view_matrix fuel eqb h a o = None.
Proof. induction fuel as [|k IH]; [reflexivity|exact IH]. Qed.
Example C133_witness : exists m q r, run false [SFromArray [[1; 2]; [3; 4]]; SFromArray [[1; 3]; [2; 4]]]%Z = Ok m /\ shared m (Opd 0 [VTranspose]) = Ok q /\ shared m (Opd 1 []) = Ok r /\
  equal Z.eqb (m_heap m) q r = Ok true /\ equal Z.eqb (m_heap m) r (deref (Owned 0 (owner_new 2 2))) = Ok false.
Proof. eexists. eexists. eexists. split; [vm_compute; reflexivity|]. repeat split; vm_compute; reflexivity. Qed.
Print Assumptions C131_programs.
Print Assumptions C131_undefined_only_if_empty.
Print Assumptions C131_no_leak.
Print Assumptions C131_empty_refuted.
Print Assumptions C132_operators_refuted.
Print Assumptions C132_from_array_refuted.
Print Assumptions C132_leak_refuted.
Print Assumptions C133_views.
Print Assumptions C133_matrices.
Print Assumptions C133_view_matrix_refuted.
