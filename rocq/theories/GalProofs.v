(** Formal power series form a commutative ring; matchings and configurations of a finite graph. *)
From Coq Require Import List Arith ZArith Bool Lia Setoid Morphisms Ring.
From Verif Require Import GalSpec.
Import ListNotations.
Open Scope Z_scope.

Definition seq_eq (f g : series) : Prop := forall n, f n = g n.
Infix "==" := seq_eq (at level 70, no associativity).
Global Instance seq_equiv : Equivalence seq_eq.
Proof. split; [intros f n; reflexivity|intros f g H n; symmetry; apply H|intros f g h H K n; rewrite H; apply K]. Qed.
Definition sadd (f g : series) : series := fun n => f n + g n.
Definition ssub (f g : series) : series := fun n => f n - g n.
Definition sopp (f : series) : series := fun n => - f n.
Definition szero : series := fun _ => 0.
Notation sone := series_one.
Definition sh (f : series) : series := fun n => f (S n).
Fixpoint conv (f g : series) (n : nat) : Z := match n with O => f O * g O | S k => f O * g (S k) + conv (sh f) g k end.
Lemma conv_series f g : conv f g == series_mul f g.
Proof.
  intros n. revert f. induction n as [|n IH]; intros f; [unfold series_mul; cbn; lia|]. cbn [conv]. rewrite IH. unfold series_mul.
  replace (seq 0 (S (S n))) with (0%nat :: map S (seq 0 (S n))) by (now rewrite seq_shift). cbn [map]. rewrite map_map, Nat.sub_0_r. reflexivity.
Qed.
Global Instance sadd_proper : Proper (seq_eq ==> seq_eq ==> seq_eq) sadd.
Proof. intros f f' H g g' K n. unfold sadd. now rewrite H, K. Qed.
Global Instance ssub_proper : Proper (seq_eq ==> seq_eq ==> seq_eq) ssub.
Proof. intros f f' H g g' K n. unfold ssub. now rewrite H, K. Qed.
Global Instance sopp_proper : Proper (seq_eq ==> seq_eq) sopp.
Proof. intros f f' H n. unfold sopp. now rewrite H. Qed.
Global Instance conv_proper : Proper (seq_eq ==> seq_eq ==> seq_eq) conv.
Proof. intros f f' H g g' K n. revert f f' H. induction n as [|n IH]; intros f f' H; cbn; [now rewrite H, K|]. rewrite H, K. f_equal. apply IH. intros k. apply H. Qed.
Lemma conv_add_l f g h n : conv (sadd f g) h n = conv f h n + conv g h n.
Proof. revert f g. induction n as [|n IH]; intros f g; cbn; [unfold sadd; ring|]. change (sh (sadd f g)) with (sadd (sh f) (sh g)). rewrite IH. unfold sadd. ring. Qed.
Lemma conv_scale a f h n : conv (fun i => a * f i) h n = a * conv f h n.
Proof. revert f. induction n as [|n IH]; intros f; cbn; [ring|]. change (sh (fun i => a * f i)) with (fun i => a * sh f i). rewrite IH. ring. Qed.
Lemma conv_comm_n n : forall f g, conv f g n = conv g f n.
Proof.
  induction n as [n IH] using (well_founded_induction lt_wf). intros f g. destruct n as [|[|k]]; [cbn; ring|cbn; unfold sh; ring|].
  change (conv f g (S (S k))) with (f O * g (S (S k)) + conv (sh f) g (S k)). change (conv g f (S (S k))) with (g O * f (S (S k)) + conv (sh g) f (S k)).
  rewrite (IH (S k) ltac:(lia) (sh f) g), (IH (S k) ltac:(lia) (sh g) f). 
  change (conv g (sh f) (S k)) with (g O * f (S (S k)) + conv (sh g) (sh f) k). change (conv f (sh g) (S k)) with (f O * g (S (S k)) + conv (sh f) (sh g) k). rewrite (IH k ltac:(lia) (sh g) (sh f)). ring.
Qed.
Lemma conv_assoc_n n : forall f g h, conv (conv f g) h n = conv f (conv g h) n.
Proof.
  induction n as [|n IH]; intros f g h; [cbn; ring|]. cbn [conv].
  assert (E : sh (conv f g) == sadd (fun i => f O * sh g i) (conv (sh f) g)) by (intros k; reflexivity).
  rewrite (conv_proper _ _ E h h (reflexivity h) n), conv_add_l, conv_scale, IH. ring.
Qed.
Lemma conv_one_l f n : conv sone f n = f n.
Proof.
  assert (Z0 : forall k, conv (sh sone) f k = 0) by (intros k; assert (G : forall h : series, (forall i, h i = 0) -> conv h f k = 0); [induction k as [|k IH]; intros h H; cbn; [now rewrite H|]; rewrite H, IH; [reflexivity|intros i; apply H]|apply G; reflexivity]).
  destruct n; cbn [conv]; [unfold series_one; ring|]. rewrite Z0. unfold series_one. ring.
Qed.
Definition smul (f g : series) : series := conv f g.
Global Instance smul_proper : Proper (seq_eq ==> seq_eq ==> seq_eq) smul.
Proof. exact conv_proper. Qed.
Lemma smul_series f g : smul f g == series_mul f g.
Proof. apply conv_series. Qed.
Lemma series_ring : ring_theory szero sone sadd smul ssub sopp seq_eq.
Proof.
  constructor; try (intros; intros n; unfold sadd, ssub, sopp, szero; ring).
  - intros f n. apply conv_one_l.
  - intros f g n. apply conv_comm_n.
  - intros f g h n. symmetry. apply conv_assoc_n.
  - intros f g h n. apply conv_add_l.
Qed.
Lemma series_ext : ring_eq_ext sadd smul sopp seq_eq.
Proof. constructor; [apply sadd_proper|apply smul_proper|apply sopp_proper]. Qed.
Add Ring SeriesRing : series_ring (setoid seq_equiv series_ext).

(** The variable, its powers, the geometric series and its partial sums. *)
Definition st : series := fun n => match n with 1%nat => 1 | _ => 0 end.
Fixpoint spow (f : series) (k : nat) : series := match k with O => sone | S k => smul f (spow f k) end.
Lemma st_mul f n : smul st f n = match n with O => 0 | S k => f k end.
Proof.
  assert (E : sh st == sone) by (intros [|k]; reflexivity). destruct n as [|k]; unfold smul; cbn [conv]; [reflexivity|]. rewrite (conv_proper _ _ E f f (reflexivity f) k), conv_one_l. unfold st. ring.
Qed.
Lemma spow_mul k f n : smul (spow st k) f n = if (n <? k)%nat then 0 else f (n - k)%nat.
Proof.
  revert f n. induction k as [|k IH]; intros f n; cbn [spow]; [unfold smul; rewrite conv_one_l; now rewrite Nat.sub_0_r|]. unfold smul at 1 2. rewrite conv_assoc_n. change (smul st (smul (spow st k) f) n = (if (n <? S k)%nat then 0 else f (n - S k)%nat)). rewrite st_mul. destruct n as [|n]; [reflexivity|]. rewrite IH. reflexivity.
Qed.
Definition sg : series := geometric.
Lemma sg_spec : smul (ssub sone st) sg == sone.
Proof. assert (E : smul (ssub sone st) sg == ssub sg (smul st sg)) by ring. intros n. rewrite E. unfold ssub. rewrite st_mul. destruct n; reflexivity. Qed.
Lemma linear_st a : linear a == sadd sone (smul (fun n => match n with O => a | _ => 0 end) st).
Proof.
  set (c := fun n : nat => match n with O => a | _ => 0 end). assert (E : smul c st == smul st c) by ring. intros n. unfold sadd. rewrite E, st_mul. unfold linear, series_one, c. destruct n as [|[|n]]; lia.
Qed.
Definition sc (a : Z) : series := fun n => match n with O => a | _ => 0 end.
Lemma sc_add a b : sc (a + b) == sadd (sc a) (sc b).
Proof. intros [|n]; unfold sadd; reflexivity. Qed.
Lemma sc_opp a : sc (- a) == sopp (sc a).
Proof. intros [|n]; unfold sopp; reflexivity. Qed.
Lemma sc_one : sc 1 == sone.
Proof. intros [|n]; reflexivity. Qed.

(** Agreement of the first coefficients. *)
Definition agree (N : nat) (f g : series) : Prop := forall n, (n < N)%nat -> f n = g n.
Lemma agree_eq N f g : f == g -> agree N f g.
Proof. intros H n _. apply H. Qed.
Lemma agree_trans N f g h : agree N f g -> agree N g h -> agree N f h.
Proof. intros H K n Hn. rewrite H by exact Hn. now apply K. Qed.
Lemma agree_sym N f g : agree N f g -> agree N g f.
Proof. intros H n Hn. symmetry. now apply H. Qed.
Lemma agree_le N M f g : (N <= M)%nat -> agree M f g -> agree N f g.
Proof. intros L H n Hn. apply H. lia. Qed.
Lemma agree_add N f f' g g' : agree N f f' -> agree N g g' -> agree N (sadd f g) (sadd f' g').
Proof. intros H K n Hn. unfold sadd. now rewrite H, K. Qed.
Lemma agree_sub N f f' g g' : agree N f f' -> agree N g g' -> agree N (ssub f g) (ssub f' g').
Proof. intros H K n Hn. unfold ssub. now rewrite H, K. Qed.
Lemma agree_mul N f f' g g' : agree N f f' -> agree N g g' -> agree N (smul f g) (smul f' g').
Proof.
  intros H K n Hn. unfold smul. revert f f' H. induction n as [|n IH]; intros f f' H; cbn; [now rewrite H, K|]. rewrite (H O), K by lia. f_equal.
  assert (G : forall m f f', (forall i, (i <= m)%nat -> f i = f' i) -> (m < N)%nat -> conv f g m = conv f' g' m).
  { clear -K. induction m as [|m IH]; intros f f' H Hm; cbn; [now rewrite H, K by lia|]. rewrite H, K by lia. f_equal. apply IH; [|lia]. intros i Hi. apply H. lia. }
  apply G; [|lia]. intros i Hi. apply H. lia.
Qed.
(** Multiplying by t gains one coefficient. *)
Lemma agree_t N f g : agree (N - 1) f g -> agree N (smul st f) (smul st g).
Proof. intros H n Hn. rewrite !st_mul. destruct n; [reflexivity|]. apply H. lia. Qed.
Lemma agree_pow N k f : (N <= k)%nat -> agree N (smul (spow st k) f) szero.
Proof. intros H n Hn. rewrite spow_mul. destruct (Nat.ltb_spec n k); [reflexivity|lia]. Qed.

(** Finite products. *)
Definition sprod {A} (f : A -> series) (l : list A) : series := fold_right (fun x acc => smul (f x) acc) sone l.
Lemma sprod_ext {A} (f g : A -> series) l : (forall x, In x l -> f x == g x) -> sprod f l == sprod g l.
Proof. induction l as [|x l IH]; intros H; [reflexivity|]. cbn [sprod fold_right]. fold (sprod f l) (sprod g l). rewrite (H x (or_introl eq_refl)), IH; [reflexivity|]. intros y Hy. apply H. now right. Qed.
Lemma sprod_app {A} (f : A -> series) l l' : sprod f (l ++ l') == smul (sprod f l) (sprod f l').
Proof. induction l as [|x l IH]; cbn [app sprod fold_right]; [fold (sprod f l'); ring|]. fold (sprod f (l ++ l')) (sprod f l). rewrite IH. ring. Qed.
Lemma sprod_one {A} (f : A -> series) l : (forall x, In x l -> f x == sone) -> sprod f l == sone.
Proof. intros H. rewrite (sprod_ext f (fun _ => sone) l H). clear. induction l as [|x l IH]; [reflexivity|]. cbn [sprod fold_right]. fold (sprod (fun _ : A => sone) l). rewrite IH. ring. Qed.
Lemma sprod_out {A} (dec : forall x y : A, {x = y} + {x <> y}) (f : A -> series) l x : NoDup l -> In x l -> sprod f l == smul (f x) (sprod (fun y => if dec y x then sone else f y) l).
Proof.
  intros ND H. induction l as [|a l IH]; [destruct H|]. inversion ND as [|? ? Na ND']; subst. cbn [sprod fold_right]. fold (sprod f l). fold (sprod (fun y => if dec y x then sone else f y) l). destruct (dec a x) as [->|N].
  - rewrite (sprod_ext f (fun y => if dec y x then sone else f y) l) at 1; [ring|]. intros y Hy. destruct (dec y x) as [->|]; [contradiction|reflexivity].
  - destruct H as [H|H]; [contradiction|]. rewrite IH by assumption. ring.
Qed.
