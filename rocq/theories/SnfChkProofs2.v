(** Lemmas for SnfChkProps: one policy against another that answers at least as often. *)
From Coq Require Import List Arith ZArith Bool Lia.
From Verif Require Import PidModel LinModel MatModel SnfModel HomModel SnfChkModel.
Import ListNotations.
Open Scope nat_scope.

Definition sim {A} (F G : option A) : Prop := forall r, F = Some r -> G = Some r.
Lemma sim_refl {A} (F : option A) : sim F F.
Proof. now intros r. Qed.
Lemma sim_none {A} (G : option A) : sim None G.
Proof. now intros r. Qed.
Lemma sim_bind {A B} (F G : option A) (K H : A -> option B) : sim F G -> (forall a, sim (K a) (H a)) -> sim (obind F K) (obind G H).
Proof. intros S SK r E. destruct F as [a|]; cbn in E; [|discriminate]. rewrite (S a eq_refl). cbn. now apply SK. Qed.
Lemma sim_if {A} (b : bool) (F F' G G' : option A) : sim F G -> sim F' G' -> sim (if b then F else F') (if b then G else G').
Proof. now destruct b. Qed.
Lemma sim_omapM {A B} (F G : A -> option B) l : (forall x, sim (F x) (G x)) -> sim (omapM F l) (omapM G l).
Proof. intros H. induction l as [|x t IH]; cbn; [apply sim_refl|]. apply sim_bind; [apply H|]. intros y. apply sim_bind; [exact IH|]. intros. apply sim_refl. Qed.
Lemma sim_foldM {A S} (F G : S -> A -> option S) l : (forall s x, sim (F s x) (G s x)) -> forall s, sim (foldM F l s) (foldM G l s).
Proof. intros H. induction l as [|x t IH]; intros s; cbn; [apply sim_refl|]. apply sim_bind; [apply H|]. intros y. apply IH. Qed.
Lemma sim_anyM {A} (F G : A -> option bool) l : (forall x, sim (F x) (G x)) -> sim (anyM F l) (anyM G l).
Proof. intros H. induction l as [|x t IH]; cbn; [apply sim_refl|]. apply sim_bind; [apply H|]. intros y. apply sim_if; [apply sim_refl|exact IH]. Qed.
Lemma sim_allM {A} (F G : A -> option bool) l : (forall x, sim (F x) (G x)) -> sim (allM F l) (allM G l).
Proof. intros H. induction l as [|x t IH]; cbn; [apply sim_refl|]. apply sim_bind; [apply H|]. intros y. apply sim_if; [exact IH|apply sim_refl]. Qed.
Lemma sim_mbuild {T} n m (F G : nat -> nat -> option T) : (forall i j, sim (F i j) (G i j)) -> sim (mbuild n m F) (mbuild n m G).
Proof. intros H. unfold mbuild. apply sim_bind; [|intros; apply sim_refl]. apply sim_omapM. intros i. apply sim_omapM. intros j. apply H. Qed.

Section Two.
Variables P Q : policy.
Hypothesis Har : forall z, sim (p_ar P z) (p_ar Q z).
Hypothesis Hdiv : forall z, sim (p_div P z) (p_div Q z).
Hypothesis Hdbg : p_dbg P = true.

Lemma sim_assert F G : sim F G -> sim (dassert P F) (dassert Q G).
Proof.
  intros H. unfold dassert, assertM. rewrite Hdbg. destruct (p_dbg Q). { apply sim_bind; [exact H|]. intros. apply sim_refl. }
  intros [] _. reflexivity.
Qed.
Ltac sm :=
  lazymatch goal with
  | |- sim ?a ?a => apply sim_refl
  | |- sim None _ => apply sim_none
  | |- sim (p_ar P _) _ => apply Har
  | |- sim (p_div P _) _ => apply Hdiv
  | |- sim (obind _ _) _ => apply sim_bind; [|intros ?; cbv beta zeta]
  | |- sim (if _ then _ else _) _ => apply sim_if
  | |- sim (let _ := _ in _) _ => cbv zeta
  | |- sim (omapM _ _) _ => apply sim_omapM; intros ?
  | |- sim (anyM _ _) _ => apply sim_anyM; intros ?
  | |- sim (allM _ _) _ => apply sim_allM; intros ?
  | |- sim (foldM _ _ _) _ => apply sim_foldM; intros ? ?
  | |- sim (mbuild _ _ _) _ => apply sim_mbuild; intros ? ?
  | |- sim (dassert _ _) _ => apply sim_assert
  | |- _ => fail
  end.
Lemma sm_euclid n d : sim (euclid_div_p P n d) (euclid_div_p Q n d).
Proof. unfold euclid_div_p. repeat sm. Qed.
Lemma sm_simplify n : sim (simplify_p P n) (simplify_p Q n).
Proof. unfold simplify_p. repeat sm. Qed.
Lemma sm_divides d n : sim (divides_p P d n) (divides_p Q d n).
Proof. unfold divides_p. sm; [apply sm_euclid|sm]. Qed.
Lemma sm_bezout_rec f : forall a b x1 x2 y1 y2, sim (bezout_rec_p P f a b x1 x2 y1 y2) (bezout_rec_p Q f a b x1 x2 y1 y2).
Proof. induction f as [|f IH]; intros; cbn [bezout_rec_p]; repeat first [sm|apply IH|apply sm_simplify|apply sm_euclid]. Qed.
Lemma sm_bezout a b : sim (bezout_identity_p P a b) (bezout_identity_p Q a b).
Proof. apply sm_bezout_rec. Qed.
Lemma sm_madd A B : sim (madd_p P A B) (madd_p Q A B).
Proof. unfold madd_p. repeat sm. Qed.
Lemma sm_mscale A c : sim (mscale_p P A c) (mscale_p Q A c).
Proof. unfold mscale_p. repeat sm. Qed.
Lemma sm_row_op M r1 r2 s : sim (row_operation_p P M r1 r2 s) (row_operation_p Q M r1 r2 s).
Proof. unfold row_operation_p. repeat first [sm|apply sm_mscale]. Qed.
Lemma sm_col_op M r1 r2 s : sim (col_operation_p P M r1 r2 s) (col_operation_p Q M r1 r2 s).
Proof. unfold col_operation_p. repeat first [sm|apply sm_mscale]. Qed.
Lemma sm_comb_rows M i k c0 x y : sim (comb_rows_p P M i k c0 x y) (comb_rows_p Q M i k c0 x y).
Proof. unfold comb_rows_p. repeat first [sm|apply sm_mscale|apply sm_madd]. Qed.
Lemma sm_comb_cols M i k c0 x y : sim (comb_cols_p P M i k c0 x y) (comb_cols_p Q M i k c0 x y).
Proof. unfold comb_cols_p. repeat first [sm|apply sm_mscale|apply sm_madd]. Qed.
Lemma sm_block_rows M i k c0 x y z w : sim (block_rows_p P M i k c0 x y z w) (block_rows_p Q M i k c0 x y z w).
Proof. unfold block_rows_p. repeat first [sm|apply sm_comb_rows]. Qed.
Lemma sm_block_cols M i k c0 x y z w : sim (block_cols_p P M i k c0 x y z w) (block_cols_p Q M i k c0 x y z w).
Proof. unfold block_cols_p. repeat first [sm|apply sm_comb_cols]. Qed.
Lemma sm_dividesM M a b c d : sim (dividesM_p P M a b c d) (dividesM_p Q M a b c d).
Proof. unfold dividesM_p. repeat first [sm|apply sm_divides]. Qed.
Lemma sm_quot a b : sim (quotM_p P a b) (quotM_p Q a b).
Proof. unfold quotM_p. repeat first [sm|apply sm_euclid]. Qed.
Ltac sn := repeat first [sm|apply sm_dividesM|apply sm_quot|apply sm_block_rows|apply sm_block_cols|apply sm_row_op|apply sm_col_op|apply sm_bezout].
Lemma sm_row_step i j st k : sim (improve_row_step_p P i j st k) (improve_row_step_p Q i j st k).
Proof. unfold improve_row_step_p. sn. Qed.
Lemma sm_col_step i j st k : sim (improve_col_step_p P i j st k) (improve_col_step_p Q i j st k).
Proof. unfold improve_col_step_p. sn. Qed.
Lemma sm_notdiv i j M : sim (not_divides_some_p P i j M) (not_divides_some_p Q i j M).
Proof. unfold not_divides_some_p. sn. Qed.
Lemma sm_improve f : forall i j st, sim (improve_p P f i j st) (improve_p Q f i j st).
Proof. induction f as [|f IH]; intros; cbn [improve_p]; repeat first [sm|apply IH|apply sm_notdiv|apply sm_row_step|apply sm_col_step|apply sm_dividesM]. Qed.
Lemma sm_elim_row i j st k : sim (elim_row_step_p P i j st k) (elim_row_step_p Q i j st k).
Proof. unfold elim_row_step_p. sn. Qed.
Lemma sm_elim_col i j st k : sim (elim_col_step_p P i j st k) (elim_col_step_p Q i j st k).
Proof. unfold elim_col_step_p. sn. Qed.
Lemma sm_pivot f : forall i j st, sim (pivot_loop_p P f i j st) (pivot_loop_p Q f i j st).
Proof.
  induction f as [|f IH]; intros; cbn [pivot_loop_p]; [repeat sm|]. sm; [|sm]. sm; [sm|]. destruct a as [j'|]; [|sm].
  sm; [sm|]. destruct a as [l|]; [|sm]. repeat first [sm|apply IH|apply sm_improve|apply sm_elim_row|apply sm_elim_col].
Qed.
Lemma sm_divis_step r st s : sim (divis_step_p P r st s) (divis_step_p Q r st s).
Proof. unfold divis_step_p. sn. Qed.
Lemma sm_snf M : sim (smith_normal_form_p P M) (smith_normal_form_p Q M).
Proof. unfold smith_normal_form_p, divis_loop_p. repeat first [sm|apply sm_pivot|apply sm_divis_step|apply sm_dividesM]. Qed.

Context {B : Type}.
Variable cmp : B -> B -> comparison.
Lemma sm_scale c (v : list (Z * B)) : sim (scale (p_ar P) c v) (scale (p_ar Q) c v).
Proof. induction v as [|[s b] t IH]; cbn [scale]; repeat first [sm|exact IH]. Qed.
Lemma sm_vmul c (v : list (Z * B)) : sim (vmul (p_ar P) v c) (vmul (p_ar Q) v c).
Proof. unfold vmul. repeat first [sm|apply sm_scale]. Qed.
Lemma sm_sum_coeffs (l : list (@cursor B)) : forall c, sim (sum_coeffs (p_ar P) c l) (sum_coeffs (p_ar Q) c l).
Proof. induction l as [|x t IH]; intros c; cbn [sum_coeffs]; repeat first [sm|apply IH]. Qed.
Lemma sm_sum_loop f : forall l, sim (sum_loop (p_ar P) cmp f l) (sum_loop (p_ar Q) cmp f l).
Proof.
  induction f as [|f IH]; intros l; cbn [sum_loop]; [sm|]. destruct l as [|[[c b] t] l]; [sm|]. cbv zeta.
  repeat first [sm|apply sm_sum_coeffs|apply IH].
Qed.
Lemma sm_change M (bs : list B) : sim (change_basis_p P cmp M bs) (change_basis_p Q cmp M bs).
Proof. unfold change_basis_p, vsum, b_scale. repeat first [sm|apply sm_sum_loop|apply sm_vmul]. Qed.
Lemma sm_hom_step st (bm : mat Z * list B) : sim (hom_step_p P cmp st bm) (hom_step_p Q cmp st bm).
Proof.
  unfold hom_step_p. apply sim_bind; [apply sm_snf|]. intros [[[[Ri R] D] C] Ci]. cbv zeta. repeat first [sm|apply sm_change|apply sm_vmul].
Qed.
Lemma sm_hom_run (l : list (mat Z * list B)) : forall st, sim (hom_run_p P cmp st l) (hom_run_p Q cmp st l).
Proof. induction l as [|bm t IH]; intros st; cbn [hom_run_p]; [sm|]. apply sim_bind; [apply sm_hom_step|]. intros. apply sim_bind; [apply IH|]. intros. sm. Qed.
Lemma sm_hom (bms : list (mat Z * list B)) max_dim : sim (integral_homology_p P cmp bms max_dim) (integral_homology_p Q cmp bms max_dim).
Proof.
  unfold integral_homology_p. destruct (rev bms) as [|l t] eqn:E; [sm|]. sm; [sm|]. apply sim_bind; [apply sm_hom_run|]. intros. sm.
Qed.
End Two.

Lemma width_wrap w z : (0 < w)%Z -> sim (width w z) (Some (wrap w z)).
Proof.
  intros Hw r. unfold width. destruct (_ && _) eqn:E; [|discriminate]. intros [= <-]. f_equal. apply andb_prop in E. destruct E as [E1 E2].
  apply Z.leb_le in E1, E2. unfold wrap. rewrite Z.mod_small; [lia|].
  replace (2 ^ w)%Z with (2 * 2 ^ (w - 1))%Z by (rewrite <- Z.pow_succ_r by lia; f_equal; lia). lia.
Qed.
