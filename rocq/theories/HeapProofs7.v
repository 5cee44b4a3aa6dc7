(** Lemmas for C131, C132: the step theorem. *)
From Coq Require Import List Arith NArith Bool Lia ZifyBool ZifyNat ZifyN.
From Verif Require Import PidModel MatModel ViewModel ViewSpec ViewProofs HeapModel HeapSpec HeapProofs HeapProofs2 HeapProofs3 HeapProofs4 HeapProofs5 HeapProofs6.
Import ListNotations.
Open Scope nat_scope.

Section H.
  Context {T : Type} {O : Ops T}.
  Variable nd : bool.
  Implicit Types (h : heap T) (A B M : smat T) (q : href).

  Lemma mutable_resolve (m : mstate T) a : mutable m a = resolve m (splace a) (the_ops a).
  Proof. destruct a as [x rs]. reflexivity. Qed.
  (** The form of all changes in place. *)
  Lemma change_ok m s a ok g (f : href -> res (heap T)) : inv m s ->
    (forall q o L r M, nth_error (m_vars m) (splace a) = Some (Some o) -> fst q = o_block o -> placed (m_heap m) q L r M -> match ok (look M r) with
       | SOk _ => changed (m_heap m) (fst q) L (paste M r (g (look M r))) (f q)
       | SPanic => f q = Panic | _ => False end) ->
    agrees (dr r <- mutable m a; in_place m (f r)) (change s a ok g).
  Proof.
    intros I H. rewrite mutable_resolve. unfold change. pose proof (resolve_ok m s (splace a) (the_ops a) I) as K.
    destruct (sview s (splace a) (the_ops a)) as [[M r]| | | |]; try contradiction; cbn [obnd]; try (rewrite K; exact Logic.I).
    destruct K as (q & o & L & E & E1 & E2 & E3 & G & Es & Eh & Ew & P). rewrite E. cbn [rbind]. pose proof (H q o L r M E1 E3 P) as K.
    destruct (ok (look M r)); cbn [obnd]; try contradiction; [|rewrite K; exact Logic.I].
    apply (changed_var m s (splace a) o L M r _ _ (fst q)); try assumption. apply P.
  Qed.
  Lemma step_ok m s c : inv m s -> agrees (step nd m c) (sstep nd s c).
  Proof.
    intros I. destruct c as [v|n m'|n|a|a b|a b|a b|a c|a i j x|x b|x b|a c|a b|a p k|a p k|a p k c|a p k c|x|x]; cbn [step sstep].
    - (* from_array *) destruct v as [|[|y r0] v]; [exact Logic.I|exact Logic.I|]. pose proof (sized_ok (length ((y :: r0) :: v)) (length (y :: r0))) as K.
      destruct (sized (length ((y :: r0) :: v)) (length (y :: r0))) eqn:Sz; try contradiction; cbn [obnd]; [|exfalso; cbn in K; lia|exact Logic.I].
      destruct K as [K1 K2]. pose proof (from_array_ok nd (m_heap m) y r0 v K2) as F. cbv zeta in F. destruct nd eqn:Hnd; [rewrite F; exact Logic.I|].
      destruct (forallb _ _); [|rewrite F; exact Logic.I]. unfold make. rewrite Sz. cbn [obnd andb]. now apply new_var.
    - (* zero *) pose proof (zero_ok nd (m_heap m) n m') as F. unfold panic_unless. destruct (_ && _); [|rewrite F; exact Logic.I]. cbn [obnd]. now apply made_ok.
    - (* identity *) pose proof (identity_ok nd (m_heap m) n) as F. unfold panic_unless. destruct (0 <? n); [|rewrite F; exact Logic.I]. cbn [obnd]. now apply made_ok.
    - (* as_matrix *) pose proof (shared_ok m s a I) as K. destruct (sshared s a) as [A| | | |]; try contradiction; cbn [obnd]; try (rewrite K; exact Logic.I).
      destruct K as (q & o & E & _ & _ & HA). rewrite E. cbn [rbind]. apply made_ok; [exact I|]. now apply as_matrix_ok.
    - (* + *) pose proof (shared_ok m s a I) as K. destruct (sshared s a) as [A| | | |]; try contradiction; cbn [obnd]; try (rewrite K; exact Logic.I).
      destruct K as (q & o & E & _ & _ & HA). rewrite E. cbn [rbind]. clear E.
      pose proof (shared_ok m s b I) as K. destruct (sshared s b) as [B| | | |]; try contradiction; cbn [obnd]; try (rewrite K; exact Logic.I).
      destruct K as (q' & o' & E & _ & _ & HB). rewrite E. cbn [rbind]. pose proof (zip_with_ok nd tadd (m_heap m) q q' A B HA HB) as F. unfold panic_unless.
      destruct (same_size A B); cbn [obnd]; [now apply made_ok|rewrite F; exact Logic.I].
    - (* - *) pose proof (shared_ok m s a I) as K. destruct (sshared s a) as [A| | | |]; try contradiction; cbn [obnd]; try (rewrite K; exact Logic.I).
      destruct K as (q & o & E & _ & _ & HA). rewrite E. cbn [rbind]. clear E.
      pose proof (shared_ok m s b I) as K. destruct (sshared s b) as [B| | | |]; try contradiction; cbn [obnd]; try (rewrite K; exact Logic.I).
      destruct K as (q' & o' & E & _ & _ & HB). rewrite E. cbn [rbind]. pose proof (zip_with_ok nd tsub (m_heap m) q q' A B HA HB) as F. unfold panic_unless.
      destruct (same_size A B); cbn [obnd]; [now apply made_ok|rewrite F; exact Logic.I].
    - (* * *) pose proof (shared_ok m s a I) as K. destruct (sshared s a) as [A| | | |]; try contradiction; cbn [obnd]; try (rewrite K; exact Logic.I).
      destruct K as (q & o & E & _ & _ & HA). rewrite E. cbn [rbind]. clear E.
      pose proof (shared_ok m s b I) as K. destruct (sshared s b) as [B| | | |]; try contradiction; cbn [obnd]; try (rewrite K; exact Logic.I).
      destruct K as (q' & o' & E & _ & _ & HB). rewrite E. cbn [rbind]. pose proof (mul_ok nd (m_heap m) q q' A B HA HB) as F.
      pose proof (sized_ok (sm_h A) (sm_w B)) as K. destruct (sized (sm_h A) (sm_w B)); try contradiction; cbn [obnd].
      + destruct K as [K1 K2]. replace (sm_h A * sm_w B =? 0) with false in F by lia. specialize (F K2). unfold panic_unless.
        destruct (_ && _); cbn [obnd]; [now apply made_ok|rewrite F; exact Logic.I].
      + rewrite K in F. cbn in F. rewrite F. exact Logic.I.
      + exact Logic.I.
    - (* scalar * *) pose proof (shared_ok m s a I) as K. destruct (sshared s a) as [A| | | |]; try contradiction; cbn [obnd]; try (rewrite K; exact Logic.I).
      destruct K as (q & o & E & _ & _ & HA). rewrite E. cbn [rbind]. apply made_ok; [exact I|]. now apply scale_ok.
    - (* [] = *) apply change_ok; [exact I|]. intros q o L r M _ _ P. pose proof (set_ok nd (m_heap m) q L r M i j x P) as F. unfold panic_unless. cbn [look sm_h sm_w].
      destruct (_ && _); exact F.
    - (* += *) destruct b as [y ops]. cbn [apart sapart]. destruct (x =? y) eqn:Exy; [exact Logic.I|]. cbn [rbind obnd].
      pose proof (shared_ok m s (Opd y ops) I) as K. destruct (sshared s (Opd y ops)) as [B| | | |]; try contradiction; cbn [obnd]; try (rewrite K; exact Logic.I).
      destruct K as (q' & o' & E & Ey & Eq & HB). rewrite E. cbn [rbind]. apply (change_ok m s (Place x []) _ _ (fun r => zip_assign nd tadd (m_heap m) r q')); [exact I|]. intros q o L r M Ex Eo P.
      assert (NE : fst q' <> fst q). { intros Q. rewrite Eq, Eo in Q. pose proof (inv_apart m s I y x o' o Ey Ex Q). lia. }
      pose proof (zip_assign_ok nd tadd (m_heap m) q L r M q' B P HB NE) as F. unfold panic_unless. destruct (same_size (look M r) B); exact F.
    - (* -= *) destruct b as [y ops]. cbn [apart sapart]. destruct (x =? y) eqn:Exy; [exact Logic.I|]. cbn [rbind obnd].
      pose proof (shared_ok m s (Opd y ops) I) as K. destruct (sshared s (Opd y ops)) as [B| | | |]; try contradiction; cbn [obnd]; try (rewrite K; exact Logic.I).
      destruct K as (q' & o' & E & Ey & Eq & HB). rewrite E. cbn [rbind]. apply (change_ok m s (Place x []) _ _ (fun r => zip_assign nd tsub (m_heap m) r q')); [exact I|]. intros q o L r M Ex Eo P.
      assert (NE : fst q' <> fst q). { intros Q. rewrite Eq, Eo in Q. pose proof (inv_apart m s I y x o' o Ey Ex Q). lia. }
      pose proof (zip_assign_ok nd tsub (m_heap m) q L r M q' B P HB NE) as F. unfold panic_unless. destruct (same_size (look M r) B); exact F.
    - (* *= *) apply (change_ok m s a (fun _ => SOk tt) (fun V i j => tmul (sm_f V i j) c)); [exact I|]. intros q o L r M _ _ P. exact (scale_assign_ok nd (m_heap m) q L r M c P).
    - (* write *) destruct a as [x rs], b as [y ops]. cbn [apart sapart splace]. destruct (x =? y) eqn:Exy; [exact Logic.I|]. cbn [rbind obnd].
      pose proof (shared_ok m s (Opd y ops) I) as K. destruct (sshared s (Opd y ops)) as [B| | | |]; try contradiction; cbn [obnd]; try (rewrite K; exact Logic.I).
      destruct K as (q' & o' & E & Ey & Eq & HB). rewrite E. cbn [rbind]. apply (change_ok m s (Place x rs) _ _ (fun r => write_view nd (m_heap m) r q')); [exact I|]. intros q o L r M Ex Eo P.
      assert (NE : fst q' <> fst q). { intros Q. rewrite Eq, Eo in Q. pose proof (inv_apart m s I y x o' o Ey Ex Q). lia. }
      pose proof (write_view_ok nd (m_heap m) q L r M q' B P HB NE) as F. unfold panic_unless. destruct (same_size (look M r) B); exact F.
    - (* swap_rows *) apply change_ok; [exact I|]. intros q o L r M _ _ P. pose proof (swap_rows_ok nd (m_heap m) q L r M p k P) as F. unfold panic_unless. cbn [look sm_h sm_w].
      destruct (_ || _); exact F.
    - (* swap_cols *) apply change_ok; [exact I|]. intros q o L r M _ _ P. pose proof (swap_cols_ok nd (m_heap m) q L r M p k P) as F. unfold panic_unless. cbn [look sm_h sm_w].
      destruct (_ || _); exact F.
    - (* row_operation *) rewrite mutable_resolve. unfold change. pose proof (resolve_ok m s (splace a) (the_ops a) I) as K.
      destruct (sview s (splace a) (the_ops a)) as [[M r]| | | |]; try contradiction; cbn [obnd]; try (rewrite K; exact Logic.I).
      destruct K as (q & o & L & E & E1 & E2 & E3 & G & Es & Eh & Ew & P). rewrite E. cbn [rbind]. pose proof (row_operation_ok nd (m_heap m) q L r M p k c P) as F.
      cbn [look sm_h sm_w]. unfold panic_unless, undef_if_destructor. destruct (_ && _); cbn [obnd]; [|rewrite F; exact Logic.I].
      destruct nd eqn:Hnd; cbn [obnd]; [rewrite F; exact Logic.I|]. destruct (p <? rv_h r); cbn [obnd]; [|rewrite F; exact Logic.I].
      destruct F as (h' & -> & Se & B'). cbn [in_place rbind agrees]. apply (settled_var m s (splace a) o L M r _ h' (fst q)); try assumption. apply P.
    - (* col_operation *) rewrite mutable_resolve. unfold change. pose proof (resolve_ok m s (splace a) (the_ops a) I) as K.
      destruct (sview s (splace a) (the_ops a)) as [[M r]| | | |]; try contradiction; cbn [obnd]; try (rewrite K; exact Logic.I).
      destruct K as (q & o & L & E & E1 & E2 & E3 & G & Es & Eh & Ew & P). rewrite E. cbn [rbind]. pose proof (col_operation_ok nd (m_heap m) q L r M p k c P) as F.
      cbn [look sm_h sm_w]. unfold panic_unless, undef_if_destructor. destruct (_ && _); cbn [obnd]; [|rewrite F; exact Logic.I].
      destruct nd eqn:Hnd; cbn [obnd]; [rewrite F; exact Logic.I|]. destruct (p <? rv_w r); cbn [obnd]; [|rewrite F; exact Logic.I].
      destruct F as (h' & -> & Se & B'). cbn [in_place rbind agrees]. apply (settled_var m s (splace a) o L M r _ h' (fst q)); try assumption. apply P.
    - (* transpose *) pose proof (var_ok m s x I) as K. destruct (svar s x) as [M| | | |]; try contradiction; cbn [obnd]; [|rewrite K; exact Logic.I].
      destruct K as (o & L & E & E1 & E2 & G & Es & Eh & Ew & HB). rewrite E. cbn [rbind agrees]. destruct I as [V Ap LV LO].
      constructor; cbn [m_heap m_vars s_vars s_lost].
      + apply Forall2_of_nth. intros i. pose proof (Forall2_nth _ _ _ V i) as K. rewrite !nth_lset.
        assert (x < length (m_vars m)) by (apply nth_error_Some; congruence). assert (x < length (s_vars s)) by (apply nth_error_Some; congruence).
        replace (x <? length (m_vars m)) with true by lia. replace (x <? length (s_vars s)) with true by lia. rewrite andb_true_r. destruct (x =? i) eqn:Exi; [|exact K].
        exists (Layout (negb (l_tr L)) (l_n L) (l_m L)). split; [exact G|]. cbn [o_shape o_block sm_h sm_w sm_f]. split; [|split; [|split]].
        * rewrite Es. unfold shape. cbn [l_tr l_n l_m]. destruct (l_tr L); reflexivity.
        * rewrite <- Ew. unfold lh, lw. cbn [l_tr l_n l_m]. destruct (l_tr L); reflexivity.
        * rewrite <- Eh. unfold lh, lw. cbn [l_tr l_n l_m]. destruct (l_tr L); reflexivity.
        * destruct HB as (c & Ec & El & R). exists c. split; [exact Ec|]. split; [exact El|]. intros [p1 p2] H1 H2. cbn [fst snd entries].
          specialize (R (p2, p1)). unfold lh, lw, laddr, entries in *. cbn [l_tr l_n l_m fst snd] in *. destruct (l_tr L); cbn [negb] in *; now apply R.
      + intros y z o1 o2 Ey Ez Eo. rewrite nth_lset in Ey, Ez. assert (x < length (m_vars m)) by (apply nth_error_Some; congruence).
        replace (x <? length (m_vars m)) with true in * by lia. rewrite andb_true_r in *.
        destruct (x =? y) eqn:Y, (x =? z) eqn:Z.
        * lia.
        * injection Ey as <-. cbn in Eo. pose proof (Ap x z o o2 E1 Ez Eo). lia.
        * injection Ez as <-. cbn in Eo. pose proof (Ap y x o1 o Ey E1 Eo). lia.
        * now apply (Ap y z o1 o2).
      + rewrite LV. apply living_ext; [now rewrite lset_length|]. intros i. unfold live. rewrite nth_lset. assert (x < length (m_vars m)) by (apply nth_error_Some; congruence).
        replace (x <? length (m_vars m)) with true in * by lia. rewrite andb_true_r in *. destruct (x =? i) eqn:Exi; [|reflexivity]. replace i with x by lia. now rewrite E1.
      + exact LO.
    - (* drop *) pose proof (var_ok m s x I) as K. destruct (svar s x) as [M| | | |]; try contradiction; cbn [obnd]; [|rewrite K; exact Logic.I].
      destruct K as (o & L & E & E1 & E2 & G & Es & Eh & Ew & HB). rewrite E. cbn [rbind].
      assert (Efree : free nd (m_heap m) o = Ok (set_block (m_heap m) (o_block o) None (if nd then sm_h M * sm_w M else 0))).
      { destruct o as [b sh]. cbn [o_block o_shape] in *. subst sh. rewrite (free_ok nd (m_heap m) b L (sm_f M) HB), Eh, Ew. reflexivity. }
      rewrite Efree. cbn [rbind agrees]. destruct I as [V Ap LV LO].
      assert (x < length (m_vars m)) by (apply nth_error_Some; congruence). assert (x < length (s_vars s)) by (apply nth_error_Some; congruence).
      constructor; cbn [m_heap m_vars s_vars s_lost set_block h_blocks h_lost].
      + apply Forall2_of_nth. intros i. pose proof (Forall2_nth _ _ _ V i) as K. rewrite !nth_lset.
        replace (x <? length (m_vars m)) with true by lia. replace (x <? length (s_vars s)) with true by lia. rewrite andb_true_r. destruct (x =? i) eqn:Exi; [exact Logic.I|].
        destruct (nth_error (m_vars m) i) as [[o'|]|] eqn:Eo, (nth_error (s_vars s) i) as [N|]; try contradiction; try exact K.
        apply (vinv_same (m_heap m)); [|exact K]. intros c Ec. unfold set_block. cbn [h_blocks]. rewrite nth_lset_other; [exact Ec|]. intros Q. pose proof (Ap x i o o' E1 Eo Q). lia.
      + intros y z o1 o2 Ey Ez Eo. rewrite nth_lset in Ey, Ez. replace (x <? length (m_vars m)) with true in * by lia. rewrite andb_true_r in *.
        destruct (x =? y) eqn:Y, (x =? z) eqn:Z; try discriminate. now apply (Ap y z o1 o2).
      + destruct HB as (c & Ec & _). pose proof (living_drop (h_blocks (m_heap m)) (o_block o) c Ec). pose proof (living_drop (m_vars m) x o E1). lia.
      + rewrite LO. reflexivity.
  Qed.
  Lemma run_inv prog : agrees (run nd prog) (srun nd prog).
  Proof.
    unfold run, srun.
    assert (I : inv (MState (@Heap T [] 0) []) (SState [] 0)). { constructor; cbn; [constructor| |reflexivity|reflexivity]. intros [|x] y o o' E; discriminate E. }
    revert I. generalize (MState (@Heap T [] 0) []) (@SState T [] 0). induction prog as [|c prog IH]; intros m s I; cbn [foldR srun_from]; [exact I|].
    pose proof (step_ok m s c I) as K. destruct (sstep nd s c), (step nd m c); cbn [agrees] in K; try contradiction; cbn [obnd rbind]; try exact Logic.I. now apply IH.
  Qed.
  Lemma run_ok prog : agree (run nd prog) (srun nd prog).
  Proof. apply agrees_agree, run_inv. Qed.

  Lemma equal_ok (eqb : T -> T -> bool) h a b A B : opnd h a A -> opnd h b B -> exists c, equal eqb h a b = Ok c /\
    (c = true <-> sm_h A = sm_h B /\ sm_w A = sm_w B /\ forall i j, i < sm_h A -> j < sm_w A -> eqb (sm_f A i j) (sm_f B i j) = true).
  Proof.
    intros HA HB. unfold equal. rewrite (opnd_size h a A HA), (opnd_size h b B HB). cbn [fst snd].
    destruct (_ && _) eqn:C; [|exists false; split; [reflexivity|]; split; [discriminate|lia]].
    assert (H : exists c, all_equal eqb h a b (cells (sm_h A) (sm_w A)) = Ok c /\ (c = true <-> forall ij, In ij (cells (sm_h A) (sm_w A)) -> eqb (sm_f A (fst ij) (snd ij)) (sm_f B (fst ij) (snd ij)) = true)).
    { assert (H : forall ij, In ij (cells (sm_h A) (sm_w A)) -> fst ij < sm_h A /\ snd ij < sm_w A) by (intros ij; apply in_cells).
      revert H. generalize (cells (sm_h A) (sm_w A)). induction l as [|[i j] l IH]; intros H; [exists true; split; [reflexivity|]; split; [intros _ ij []|reflexivity]|].
      cbn [all_equal]. destruct (H (i, j) (or_introl eq_refl)) as [H1 H2]. cbn [fst snd] in *. rewrite (opnd_rd h a A i j HA), (opnd_rd h b B i j HB).
      replace ((i <? sm_h A) && (j <? sm_w A)) with true by lia. replace ((i <? sm_h B) && (j <? sm_w B)) with true by lia. cbn [rbind].
      destruct (eqb (sm_f A i j) (sm_f B i j)) eqn:E.
      - destruct IH as (c & Ec & Hc); [intros ij Hij; apply H; now right|]. exists c. split; [exact Ec|]. rewrite Hc. split; [intros K ij [<-|Hij]; [exact E|now apply K]|intros K ij Hij; apply K; now right].
      - exists false. split; [reflexivity|]. split; [discriminate|]. intros K. specialize (K (i, j) (or_introl eq_refl)). cbn in K. congruence. }
    destruct H as (c & Ec & Hc). exists c. split; [exact Ec|]. rewrite Hc. split.
    - intros K. split; [lia|]. split; [lia|]. intros i j Hi Hj. apply (K (i, j)). now apply in_cells.
    - intros (_ & _ & K) [i j] Hij. apply in_cells in Hij. now apply K.
  Qed.
End H.
