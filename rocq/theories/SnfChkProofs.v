(** Lemmas for SnfChkProps: the policies [debug w] against exact arithmetic. *)
From Coq Require Import List Arith ZArith Bool Lia.
From Verif Require Import PidModel LinModel MatModel SnfModel HomModel SnfChkModel.
Import ListNotations.
Open Scope nat_scope.

(** A family of computations, one for each width, that returns nothing but the value of [G], and does return it at large widths. *)
Definition agree {A} (F : Z -> option A) (G : option A) : Prop :=
  (forall w r, F w = Some r -> G = Some r) /\ (forall r, G = Some r -> exists w0, forall w, (w0 <= w)%Z -> F w = Some r).

Lemma agree_const {A} (G : option A) : agree (fun _ => G) G.
Proof. split; [auto|]. intros r H. exists 0%Z. auto. Qed.
Lemma agree_bind {A B} (F : Z -> option A) G (K : Z -> A -> option B) H :
  agree F G -> (forall a, agree (fun w => K w a) (H a)) -> agree (fun w => obind (F w) (K w)) (obind G H).
Proof.
  intros [HF EF] HK. split.
  - intros w r E. destruct (F w) as [a|] eqn:Ea; cbn in E; [|discriminate]. rewrite (HF _ _ Ea). cbn. exact (proj1 (HK a) _ _ E).
  - intros r E. destruct G as [a|]; cbn in E; [|discriminate]. destruct (EF a eq_refl) as [w0 H0].
    destruct (proj2 (HK a) r E) as [w1 H1]. exists (Z.max w0 w1). intros w Hw. rewrite H0 by lia. cbn. apply H1. lia.
Qed.
Lemma agree_if {A} (b : bool) (F F' : Z -> option A) G G' : agree F G -> agree F' G' -> agree (fun w => if b then F w else F' w) (if b then G else G').
Proof. now destruct b. Qed.
Lemma agree_width z : agree (fun w => width w z) (Some z).
Proof.
  split.
  - intros w r. unfold width. destruct (_ && _); congruence.
  - intros r [= <-]. exists (Z.log2 (Z.abs z) + 2)%Z. intros w Hw. unfold width.
    assert (L0 := Z.log2_nonneg (Z.abs z)).
    assert (Hz : (Z.abs z < 2 ^ (w - 1))%Z).
    { destruct (Z.eq_dec z 0) as [->|N]. { cbn. apply Z.pow_pos_nonneg; lia. }
      assert (L := proj2 (Z.log2_spec (Z.abs z) ltac:(lia))).
      eapply Z.lt_le_trans; [exact L|]. apply Z.pow_le_mono_r; lia. }
    replace (- 2 ^ (w - 1) <=? z)%Z with true by (symmetry; apply Z.leb_le; lia).
    replace (z <=? 2 ^ (w - 1) - 1)%Z with true by (symmetry; apply Z.leb_le; lia). reflexivity.
Qed.
Lemma agree_omapM {A B} (F : Z -> A -> option B) G l : (forall x, agree (fun w => F w x) (G x)) -> agree (fun w => omapM (F w) l) (omapM G l).
Proof.
  intros H. induction l as [|x t IH]; cbn. { apply agree_const. }
  apply agree_bind; [apply H|]. intros y. apply agree_bind; [exact IH|]. intros. apply agree_const.
Qed.
Lemma agree_foldM {A S} (F : Z -> S -> A -> option S) G l : (forall s x, agree (fun w => F w s x) (G s x)) -> forall s, agree (fun w => foldM (F w) l s) (foldM G l s).
Proof.
  intros H. induction l as [|x t IH]; intros s; cbn. { apply agree_const. }
  apply agree_bind; [apply H|]. intros y. apply IH.
Qed.
Lemma agree_anyM {A} (F : Z -> A -> option bool) G l : (forall x, agree (fun w => F w x) (G x)) -> agree (fun w => anyM (F w) l) (anyM G l).
Proof.
  intros H. induction l as [|x t IH]; cbn. { apply agree_const. }
  apply agree_bind; [apply H|]. intros y. apply agree_if; [apply agree_const|exact IH].
Qed.
Lemma agree_allM {A} (F : Z -> A -> option bool) G l : (forall x, agree (fun w => F w x) (G x)) -> agree (fun w => allM (F w) l) (allM G l).
Proof.
  intros H. induction l as [|x t IH]; cbn. { apply agree_const. }
  apply agree_bind; [apply H|]. intros y. apply agree_if; [exact IH|apply agree_const].
Qed.
Lemma agree_mbuild {T} n m (F : Z -> nat -> nat -> option T) G : (forall i j, agree (fun w => F w i j) (G i j)) -> agree (fun w => mbuild n m (F w)) (mbuild n m G).
Proof.
  intros H. unfold mbuild. apply agree_bind; [|intros; apply agree_const]. apply agree_omapM. intros i. apply agree_omapM. intros j. apply H.
Qed.
Lemma agree_eq {A} (F : Z -> option A) G G' : G = G' -> agree F G -> agree F G'.
Proof. now intros ->. Qed.
(** Bind with a value that is known on the right. *)
Lemma agree_bind_r {A B} (F : Z -> option A) a (K : Z -> A -> option B) H :
  agree F (Some a) -> agree (fun w => K w a) H -> agree (fun w => obind (F w) (K w)) H.
Proof.
  intros [HF EF] [HK EK]. split.
  - intros w r E. destruct (F w) as [x|] eqn:Ea; cbn in E; [|discriminate]. assert (X := HF _ _ Ea). injection X as <-. exact (HK _ _ E).
  - intros r E. destruct (EF a eq_refl) as [w0 H0]. destruct (EK r E) as [w1 H1]. exists (Z.max w0 w1). intros w Hw.
    rewrite H0 by lia. cbn. apply H1. lia.
Qed.


(** A family of policies that answer, if at all, with the exact value, and do answer at large widths. *)
Definition good_policies (P : Z -> policy) : Prop :=
  (forall z, agree (fun w => p_ar (P w) z) (Some z)) /\ (forall z, agree (fun w => p_div (P w) z) (Some z)) /\ forall w, p_dbg (P w) = true.
Lemma good_debug : good_policies debug.
Proof. split; [|split]; [exact agree_width|exact agree_width|reflexivity]. Qed.
Lemma good_exact : good_policies (fun _ => exact).
Proof. split; [|split]; [intros; apply agree_const|intros; apply agree_const|reflexivity]. Qed.
Lemma agree_exact {A} (F G : option A) : agree (fun _ => F) G -> F = G.
Proof.
  intros [H1 H2]. destruct F as [a|]. { symmetry. exact (H1 0%Z a eq_refl). } destruct G as [b|]; [|reflexivity].
  destruct (H2 b eq_refl) as [w0 H]. discriminate (H w0 (Z.le_refl _)).
Qed.

Section Good.
Variable P : Z -> policy.
Hypothesis HP : good_policies P.
Lemma agree_ar z : agree (fun w => p_ar (P w) z) (Some z).
Proof. apply HP. Qed.
Lemma agree_div z : agree (fun w => p_div (P w) z) (Some z).
Proof. apply HP. Qed.
Lemma agree_dbg {A} (F F' : Z -> option A) G : agree F G -> agree (fun w => if p_dbg (P w) then F w else F' w) G.
Proof.
  destruct HP as (_ & _ & D). intros [H1 H2]. split.
  - intros w r. rewrite D. apply H1.
  - intros r E. destruct (H2 r E) as [w0 H]. exists w0. intros w Hw. rewrite D. auto.
Qed.
Lemma agree_assert F G : agree F G -> agree (fun w => dassert (P w) (F w)) (assertM G).
Proof. intros H. unfold dassert. apply agree_dbg. unfold assertM. apply agree_bind; [exact H|]. intros b. apply agree_const. Qed.
Ltac ag1 :=
  first [ apply agree_const
        | apply agree_ar | apply agree_div
        | apply agree_bind; [|intros ?; cbv beta zeta]
        | apply agree_if
        | apply agree_omapM; intros ? | apply agree_anyM; intros ? | apply agree_allM; intros ?
        | apply agree_foldM; intros ? ? | apply agree_mbuild; intros ? ?
        | apply agree_assert ].

Lemma ag_euclid n d : agree (fun w => euclid_div_p (P w) n d) (euclid_div ideal n d).
Proof.
  unfold euclid_div_p, euclid_div. apply agree_if; [ag1|]. apply agree_bind; [apply agree_div|]. intros q. cbv zeta.
  apply agree_if; [|ag1]. apply agree_if; repeat ag1.
Qed.
Lemma ag_simplify n : agree (fun w => simplify_p (P w) n) (simplify ideal n).
Proof. unfold simplify_p, simplify. cbv zeta. repeat ag1. Qed.
Lemma ag_divides d n : agree (fun w => divides_p (P w) d n) (divides ideal d n).
Proof. unfold divides_p, divides. apply agree_bind; [apply ag_euclid|]. intros. ag1. Qed.
Lemma ag_bezout_rec f : forall a b x1 x2 y1 y2, agree (fun w => bezout_rec_p (P w) f a b x1 x2 y1 y2) (bezout_rec ideal f a b x1 x2 y1 y2).
Proof.
  induction f as [|f IH]; intros; cbn [bezout_rec_p bezout_rec]; [ag1|]. apply agree_if.
  - apply agree_bind; [apply ag_simplify|]. intros s. apply agree_bind; [apply ag_euclid|]. intros xq.
    apply agree_bind; [apply ag_euclid|]. intros yq. ag1.
  - apply agree_bind; [apply ag_euclid|]. intros qr. do 4 (apply agree_bind; [apply agree_ar|]; intros ?). apply IH.
Qed.
Lemma ag_bezout a b : agree (fun w => bezout_identity_p (P w) a b) (bezout_identity ideal a b).
Proof. apply ag_bezout_rec. Qed.
Lemma ag_madd A B : agree (fun w => madd_p (P w) A B) (madd A B).
Proof. unfold madd_p, madd, mzip. cbn [tadd ops_Z]. repeat ag1. Qed.
Lemma ag_mscale A c : agree (fun w => mscale_p (P w) A c) (mscale A c).
Proof. unfold mscale_p, mscale. repeat ag1. Qed.
Lemma ag_row_op M r1 r2 s : agree (fun w => row_operation_p (P w) M r1 r2 s) (row_operation M r1 r2 s).
Proof.
  unfold row_operation_p, row_operation. ag1; [ag1|]. apply agree_bind; [apply ag_mscale|]. intros v. apply agree_foldM. intros N i.
  do 2 (apply agree_bind; [ag1|]; intros ?). eapply agree_bind_r; [apply agree_ar|]. ag1.
Qed.
Lemma ag_col_op M r1 r2 s : agree (fun w => col_operation_p (P w) M r1 r2 s) (col_operation M r1 r2 s).
Proof.
  unfold col_operation_p, col_operation. ag1; [ag1|]. apply agree_bind; [apply ag_mscale|]. intros v. apply agree_foldM. intros N i.
  do 2 (apply agree_bind; [ag1|]; intros ?). eapply agree_bind_r; [apply agree_ar|]. ag1.
Qed.
Lemma ag_comb_rows M i k c0 x y : agree (fun w => comb_rows_p (P w) M i k c0 x y) (comb_rows M i k c0 x y).
Proof.
  unfold comb_rows_p, comb_rows. ag1; [ag1|]. apply agree_bind; [apply ag_mscale|]. intros. ag1; [ag1|].
  apply agree_bind; [apply ag_mscale|]. intros. apply ag_madd.
Qed.
Lemma ag_comb_cols M i k c0 x y : agree (fun w => comb_cols_p (P w) M i k c0 x y) (comb_cols M i k c0 x y).
Proof.
  unfold comb_cols_p, comb_cols. ag1; [ag1|]. apply agree_bind; [apply ag_mscale|]. intros. ag1; [ag1|].
  apply agree_bind; [apply ag_mscale|]. intros. apply ag_madd.
Qed.
Lemma ag_block_rows M i k c0 x y z w' : agree (fun w => block_rows_p (P w) M i k c0 x y z w') (block_rows M i k c0 x y (- z) w').
Proof.
  unfold block_rows_p, block_rows. apply agree_bind; [apply ag_comb_rows|]. intros u. eapply agree_bind_r; [apply agree_ar|].
  apply agree_bind; [apply ag_comb_rows|]. intros v. ag1.
Qed.
Lemma ag_block_cols M i k c0 x y z w' : agree (fun w => block_cols_p (P w) M i k c0 x y z w') (block_cols M i k c0 x y (- z) w').
Proof.
  unfold block_cols_p, block_cols. apply agree_bind; [apply ag_comb_cols|]. intros u. eapply agree_bind_r; [apply agree_ar|].
  apply agree_bind; [apply ag_comb_cols|]. intros v. ag1.
Qed.
Lemma ag_dividesM M a b c d : agree (fun w => dividesM_p (P w) M a b c d) (dividesM M a b c d).
Proof. unfold dividesM_p, dividesM. do 2 (ag1; [ag1|]). apply ag_divides. Qed.
Lemma ag_quot a b : agree (fun w => quotM_p (P w) a b) (quotM a b).
Proof. unfold quotM_p, quotM. apply agree_bind; [apply ag_euclid|]. intros. ag1. Qed.
Ltac agb L := apply agree_bind; [apply L|]; intros ?; cbv beta zeta.
Ltac agc := apply agree_bind; [apply agree_const|]; intros ?; cbv beta zeta.
Lemma ag_row_step i j st k : agree (fun w => improve_row_step_p (P w) i j st k) (improve_row_step i j st k).
Proof.
  unfold improve_row_step_p, improve_row_step. agb ag_dividesM. ag1; [ag1|]. agc. agc. agb ag_bezout. agb ag_quot. agb ag_quot.
  agb ag_block_rows. agb ag_block_rows. agb ag_block_cols. apply agree_bind; [apply agree_assert, agree_const|]. intros. ag1.
Qed.
Lemma ag_col_step i j st k : agree (fun w => improve_col_step_p (P w) i j st k) (improve_col_step i j st k).
Proof.
  unfold improve_col_step_p, improve_col_step. agb ag_dividesM. ag1; [ag1|]. agc. agc. agb ag_bezout. agb ag_quot. agb ag_quot.
  agb ag_block_cols. agb ag_block_cols. agb ag_block_rows. apply agree_bind; [apply agree_assert, agree_const|]. intros. ag1.
Qed.
Lemma ag_notdiv i j M : agree (fun w => not_divides_some_p (P w) i j M) (not_divides_some i j M).
Proof.
  unfold not_divides_some_p, not_divides_some. apply agree_bind; [apply agree_anyM; intros; agb ag_dividesM; ag1|]. intros b. ag1; [ag1|].
  apply agree_anyM; intros; agb ag_dividesM; ag1.
Qed.
Lemma ag_improve f : forall i j st, agree (fun w => improve_p (P w) f i j st) (improve f i j st).
Proof.
  induction f as [|f IH]; intros; cbn [improve_p improve]; [ag1|]. agb ag_notdiv. ag1; [|ag1].
  apply agree_bind; [apply agree_foldM; intros; apply ag_row_step|]. intros st1.
  apply agree_bind; [apply agree_assert, agree_allM; intros; apply ag_dividesM|]. intros ?.
  apply agree_bind; [apply agree_foldM; intros; apply ag_col_step|]. intros st2.
  apply agree_bind; [apply agree_assert, agree_allM; intros; apply ag_dividesM|]. intros ?. apply IH.
Qed.
Lemma ag_elim_row i j st k : agree (fun w => elim_row_step_p (P w) i j st k) (elim_row_step i j st k).
Proof.
  unfold elim_row_step_p, elim_row_step. agc. ag1; [|ag1]. agc. agc. agb ag_quot. eapply agree_bind_r; [apply agree_ar|].
  agb ag_row_op. agb ag_row_op. agb ag_col_op. ag1.
Qed.
Lemma ag_elim_col i j st k : agree (fun w => elim_col_step_p (P w) i j st k) (elim_col_step i j st k).
Proof.
  unfold elim_col_step_p, elim_col_step. agc. ag1; [|ag1]. agc. agc. agb ag_quot. eapply agree_bind_r; [apply agree_ar|].
  agb ag_col_op. agb ag_col_op. agb ag_row_op. ag1.
Qed.
Lemma ag_pivot f : forall i j st, agree (fun w => pivot_loop_p (P w) f i j st) (pivot_loop f i j st).
Proof.
  induction f as [|f IH]; intros; cbn [pivot_loop_p pivot_loop]; [ag1; ag1|]. ag1; [|ag1]. agc. destruct a as [j'|]; [|ag1].
  agc. destruct a as [l|]; [|ag1]. agc. agc. agc. agc. agc. apply agree_bind; [apply agree_assert, agree_const|]. intros ?.
  agb ag_improve. apply agree_bind; [apply agree_foldM; intros; apply ag_elim_row|]. intros ?.
  apply agree_bind; [apply agree_foldM; intros; apply ag_elim_col|]. intros ?. apply IH.
Qed.
Lemma ag_divis_step r st s : agree (fun w => divis_step_p (P w) r st s) (divis_step r st s).
Proof.
  unfold divis_step_p, divis_step. agb ag_dividesM. ag1; [ag1|]. agb ag_col_op. agb ag_col_op. eapply agree_bind_r; [apply agree_ar|].
  agb ag_row_op. agc. agc. agb ag_bezout. agb ag_quot. agb ag_quot. agb ag_block_rows. agb ag_block_rows. agb ag_block_cols.
  do 3 (eapply agree_bind_r; [apply agree_ar|]). agb ag_col_op. agb ag_col_op. agb ag_row_op.
  do 3 (apply agree_bind; [apply agree_assert, agree_const|]; intros ?). ag1.
Qed.
Lemma ag_divis rank st : agree (fun w => divis_loop_p (P w) rank st) (divis_loop rank st).
Proof. unfold divis_loop_p, divis_loop. apply agree_foldM. intros. apply agree_foldM. intros. apply ag_divis_step. Qed.
Lemma obind_assoc {A B C} (x : option A) (f : A -> option B) (g : B -> option C) : obind (obind x f) g = obind x (fun a => obind (f a) g).
Proof. now destruct x. Qed.
Lemma ag_snf M : agree (fun w => smith_normal_form_p (P w) M) (smith_normal_form M).
Proof.
  unfold smith_normal_form, snf_pivots. eapply agree_eq. { rewrite !obind_assoc. reflexivity. }
  unfold smith_normal_form_p. agc. eapply agree_eq. { rewrite obind_assoc. reflexivity. }
  agc. eapply agree_eq. { rewrite obind_assoc. reflexivity. } agc. eapply agree_eq. { rewrite obind_assoc. reflexivity. } agc.
  eapply agree_eq. { rewrite obind_assoc. reflexivity. }
  agb ag_pivot. agc. agc. agb ag_divis. apply agree_bind; [apply agree_assert, agree_allM; intros; apply agree_allM; intros; apply ag_dividesM|]. intros. ag1.
Qed.

Section Hom.
  Context {B : Type}.
  Variable cmp : B -> B -> comparison.
  Lemma ag_scale c (v : list (Z * B)) : agree (fun w => scale (p_ar (P w)) c v) (scale ideal c v).
  Proof.
    induction v as [|[s b] t IH]; cbn [scale]; [ag1|]. apply agree_bind; [apply agree_ar|]. intros. apply agree_bind; [exact IH|]. intros. ag1.
  Qed.
  Lemma ag_vmul c (v : list (Z * B)) : agree (fun w => vmul (p_ar (P w)) v c) (vmul ideal v c).
  Proof. unfold vmul. ag1; [ag1|]. apply ag_scale. Qed.
  Lemma ag_sum_coeffs (l : list (@cursor B)) : forall c, agree (fun w => sum_coeffs (p_ar (P w)) c l) (sum_coeffs ideal c l).
  Proof. induction l as [|x t IH]; intros c; cbn [sum_coeffs]; [ag1|]. apply agree_bind; [apply agree_ar|]. intros. apply IH. Qed.
  Lemma ag_sum_loop f : forall l, agree (fun w => sum_loop (p_ar (P w)) cmp f l) (sum_loop ideal cmp f l).
  Proof.
    induction f as [|f IH]; intros l; cbn [sum_loop]; [ag1|]. destruct l as [|[[c b] t] l]; [ag1|]. cbv zeta.
    agb ag_sum_coeffs. agc. apply agree_bind; [apply IH|]. intros. ag1.
  Qed.
  Lemma ag_vsum vs : agree (fun w => vsum (p_ar (P w)) cmp vs) (vsum ideal cmp vs).
  Proof. apply ag_sum_loop. Qed.
  Lemma ag_change M (bs : list B) : agree (fun w => change_basis_p (P w) cmp M bs) (change_basis cmp M bs).
  Proof.
    unfold change_basis_p, change_basis. ag1; [|ag1]. apply agree_omapM. intros i. apply agree_bind; [|intros; apply ag_vsum].
    apply agree_omapM. intros j. agc. agc. apply ag_vmul.
  Qed.
  Lemma ag_hom_step st (bm : mat Z * list B) : agree (fun w => hom_step_p (P w) cmp st bm) (hom_step cmp st bm).
  Proof.
    unfold hom_step_p, hom_step. agb ag_snf. destruct a as [[[[Ri R] D] C] Ci]. cbv zeta. agc. agc. agc. agc. agb ag_change. agc. agb ag_change.
    apply agree_bind. { apply agree_omapM. intros ix. agc. apply ag_vmul. } intros. ag1.
  Qed.
  Lemma ag_hom_run (l : list (mat Z * list B)) : forall st, agree (fun w => hom_run_p (P w) cmp st l) (hom_run cmp st l).
  Proof.
    induction l as [|bm t IH]; intros st; cbn [hom_run_p hom_run]; [ag1|]. agb ag_hom_step. apply agree_bind; [apply IH|]. intros. ag1.
  Qed.
  Lemma ag_hom (bms : list (mat Z * list B)) max_dim : agree (fun w => integral_homology_p (P w) cmp bms max_dim) (integral_homology cmp bms max_dim).
  Proof.
    unfold integral_homology_p, integral_homology. destruct (rev bms) as [|l t] eqn:E; [ag1|]. agc. rewrite <- E. agb ag_hom_run. ag1.
  Qed.
End Hom.
End Good.
