(** Written forms: [join], rows of bits, matrices, the text of a graph. *)
From Coq Require Import String Ascii DecimalString List ZArith Bool Lia.
From Verif Require Import PidModel MatModel MatSpec MatProofs RationalModel RationalSpec PermModel LinModel UtilModel GraphModel GraphSpec GraphProofs LabGraphModel CubeModel ShowModel ShowSpec ShowProofs ShowProofs2 ShowProofs3.
Import ListNotations.
Open Scope nat_scope.
Open Scope list_scope.

Lemma join_cons sep x r : join sep (x :: r) = x ++ concat (map (fun y => sep ++ y) r).
Proof.
  revert x. induction r as [|y r IH]; intros x; [cbn; now rewrite app_nil_r|]. change (join sep (x :: y :: r)) with (x ++ sep ++ join sep (y :: r)). rewrite IH. cbn [map concat]. now rewrite <- app_assoc.
Qed.
Lemma join_idx sep l k : concat (map (fun iv => snd iv ++ (if fst iv =? k + length l - 1 then [] else sep)) (combine (seq k (length l)) l)) = join sep l.
Proof.
  revert k. induction l as [|x [|y r] IH]; intros k; [reflexivity|cbn|].
  - replace (k + 1 - 1) with k by lia. rewrite Nat.eqb_refl, !app_nil_r. reflexivity.
  - change (join sep (x :: y :: r)) with (x ++ sep ++ join sep (y :: r)). cbn [length seq combine map concat fst snd]. replace (k =? k + S (S (length r)) - 1) with false by (symmetry; apply Nat.eqb_neq; lia). rewrite <- app_assoc. do 2 f_equal.
    rewrite <- (IH (S k)). cbn [length seq combine map concat fst snd]. replace (S k + S (length r) - 1) with (k + S (S (length r)) - 1) by lia. reflexivity.
Qed.

Lemma map_nth_combine {A C} (F : nat * A -> C) d (l : list A) k : map (fun j => F (j, nth (j - k) l d)) (seq k (length l)) = map F (combine (seq k (length l)) l).
Proof.
  revert k. induction l as [|x l IH]; intros k; [reflexivity|]. cbn [length seq combine map]. replace (k - k) with 0 by lia. cbn [nth]. f_equal. rewrite <- IH. apply map_ext_in. intros j Hj. apply in_seq in Hj.
  replace (j - k) with (S (j - S k)) by lia. reflexivity.
Qed.
Lemma show_module_text r ds : show_module (module_new r ds) = group_text r (filter (fun d => negb (fst d =? 1)%Z) ds).
Proof.
  rewrite show_module_shape. unfold module_new, group_text. cbn [free_rank elementary_divisors]. set (l := filter _ ds). clearbody l.
  assert (T : forall d, cyclic (fst d) (snd d) = show_torsion d) by (intros [d m]; unfold cyclic, show_torsion; cbn [fst snd]; destruct (m =? 1); reflexivity).
  assert (P : forall l, map (fun y => lit " + " ++ y) (map (fun d => cyclic (fst d) (snd d)) l) = map plus_torsion l) by (intros k; rewrite map_map; apply map_ext; intros d; now rewrite T).
  destruct r as [|r]; cbn [Nat.eqb].
  - destruct l as [|t l]; [reflexivity|]. cbn [map app]. rewrite join_cons, P, T. reflexivity.
  - cbn [app]. rewrite join_cons, P. reflexivity.
Qed.
Lemma show_cycle_text c : show_cycle c = cycle_text c.
Proof.
  rewrite <- show_norm. unfold cycle_text. replace (match c with [] => [1] | _ => c end) with (norm_cycle c) by (destruct c; reflexivity).
  destruct c as [|x l]; cbn [norm_cycle]; rewrite show_cycle_shape; cbn [map]; rewrite join_cons, ?map_map; rewrite <- app_assoc; reflexivity.
Qed.
Lemma show_cube_text c : show_cube c = match c with [] => None | _ => Some (cube_text c) end.
Proof. destruct c as [|f c]; [reflexivity|]. unfold show_cube, cube_text. cbn [map]. rewrite join_cons, map_map, <- app_assoc. reflexivity. Qed.

(** Rows of bits *)
Definition bit_row (l : list bool) : text := concat (map show_bit l) ++ ["010"%char].
Lemma bit_row_split a b r s : bit_row a ++ r = bit_row b ++ s -> a = b /\ r = s.
Proof. unfold bit_row. rewrite <- !app_assoc. intros H. apply bits_split in H; [|st|st]. destruct H as [-> H]. injection H as ->. auto. Qed.
Lemma bit_rows_inj l m : concat (map bit_row l) = concat (map bit_row m) -> l = m.
Proof.
  assert (N : forall a r, bit_row a ++ r <> []). { intros a r H. apply app_eq_nil in H. destruct H as [H _]. unfold bit_row in H. apply app_eq_nil in H. destruct H as [_ H]. discriminate H. }
  revert m. induction l as [|a l IH]; intros [|b m] H; cbn [map concat] in H.
  - reflexivity.
  - symmetry in H. now apply N in H.
  - now apply N in H.
  - apply bit_row_split in H. destruct H as [-> H]. f_equal. auto.
Qed.
Definition graph_rows (g : rawg) : list (list bool) := map (fun j => map (fun i => edge g i j) (seq 0 j)) (seq 1 (g_n g - 1)).
Lemma show_rawg_rows g : GI g -> show_rawg g = Some (concat (map bit_row (graph_rows g))).
Proof.
  intros HG. unfold show_rawg. rewrite (omapM_ok _ (fun j => bit_row (map (fun i => edge g i j) (seq 0 j)))).
  - cbn. unfold graph_rows. rewrite map_map. reflexivity.
  - intros j Hj. apply in_seq in Hj. unfold show_row. rewrite (omapM_ok _ (fun i => show_bit (edge g i j))).
    + cbn. unfold bit_row. now rewrite map_map.
    + intros i Hi. apply in_seq in Hi. rewrite contains_edge by (assumption || lia). reflexivity.
Qed.
Lemma map_seq_inj {A} (f g : nat -> A) a n : map f (seq a n) = map g (seq a n) -> forall i, a <= i < a + n -> f i = g i.
Proof.
  revert a. induction n as [|n IH]; intros a H i Hi; [lia|]. cbn in H. injection H as E H. destruct (Nat.eq_dec i a) as [->|N]; [exact E|]. apply (IH (S a)); [exact H|lia].
Qed.
Lemma graph_rows_inj g h : 1 <= g_n g -> 1 <= g_n h -> graph_rows g = graph_rows h -> g_n g = g_n h /\ forall i j, i < j -> j < g_n g -> edge g i j = edge h i j.
Proof.
  intros Hg Hh H. assert (N : g_n g = g_n h). { apply (f_equal (@length _)) in H. unfold graph_rows in H. rewrite !map_length, !seq_length in H. lia. }
  split; [exact N|]. intros i j Hij Hj. unfold graph_rows in H. rewrite <- N in H. apply (fun H => map_seq_inj _ _ _ _ H j) in H; [|lia]. apply (fun H => map_seq_inj _ _ _ _ H i) in H; [exact H|lia].
Qed.

(** Pools *)
Lemma pool_bits_inj (f g : nat -> bool) n k e : concat (map (fun i => show_bit (f i) ++ (if i =? e then [] else lit ", ")) (seq k n)) = concat (map (fun i => show_bit (g i) ++ (if i =? e then [] else lit ", ")) (seq k n)) ->
  forall i, k <= i < k + n -> f i = g i.
Proof.
  revert k. induction n as [|n IH]; intros k H i Hi; [lia|]. cbn [seq map concat] in H. rewrite <- !app_assoc in H.
  assert (B : f k = g k) by (destruct (f k), (g k); try reflexivity; discriminate H). rewrite B in H. apply app_inv_head in H. apply app_inv_head in H.
  destruct (Nat.eq_dec i k) as [->|N]; [exact B|]. apply (IH (S k)); [exact H|lia].
Qed.

(** Matrices *)
Definition tab_Z (z : Z) : text := ["009"%char] ++ show_Z z.
Definition row_text (l : list Z) : text := lit "| " ++ join ["009"%char] (map show_Z l) ++ lit " |" ++ ["010"%char].
Lemma row_split a b r s : row_text a ++ r = row_text b ++ s -> a = b /\ r = s.
Proof.
  unfold row_text. rewrite <- !app_assoc. intros H. apply app_inv_head in H.
  assert (H0 : forall z l q t, show_Z z ++ l <> " "%char :: q /\ show_Z z ++ l <> t -> show_Z z ++ l <> " "%char :: q) by tauto.
  assert (N : forall z l q, show_Z z ++ l <> " "%char :: q) by (intros z l q K; destruct (show_Z_head z) as (c & u & E & [D|D]); rewrite E in K; injection K as K _; subst c; discriminate D). clear H0.
  assert (TS : forall l m r s, stops (fun c => ndigit c && negb (Ascii.eqb c "009")) r -> stops (fun c => ndigit c && negb (Ascii.eqb c "009")) s -> concat (map tab_Z l) ++ r = concat (map tab_Z m) ++ s -> l = m /\ r = s).
  { intros l m r' s' Sr Ss K. apply (concat_split tab_Z (fun _ => True) "009"%char ndigit) in K; try assumption; auto; try now apply Forall_forall.
    - intros x y u v _ _ Su Sv E. unfold tab_Z in E. cbn -[show_Z] in E. injection E as E. now apply show_Z_split in E.
    - intros x. eexists. reflexivity. }
  destruct a as [|x a], b as [|y b]; cbn [map join] in H.
  - apply app_inv_head in H. apply app_inv_head in H. apply app_inv_head in H. auto.
  - fold (join ["009"%char] (map show_Z (y :: b))) in H. change (match map show_Z b with [] => show_Z y | _ => show_Z y ++ ["009"%char] ++ join ["009"%char] (map show_Z b) end) with (join ["009"%char] (show_Z y :: map show_Z b)) in H.
    rewrite join_cons, <- app_assoc in H. symmetry in H. now apply N in H.
  - change (match map show_Z a with [] => show_Z x | _ => show_Z x ++ ["009"%char] ++ join ["009"%char] (map show_Z a) end) with (join ["009"%char] (show_Z x :: map show_Z a)) in H.
    rewrite join_cons, <- app_assoc in H. now apply N in H.
  - change (match map show_Z a with [] => show_Z x | _ => show_Z x ++ ["009"%char] ++ join ["009"%char] (map show_Z a) end) with (join ["009"%char] (show_Z x :: map show_Z a)) in H.
    change (match map show_Z b with [] => show_Z y | _ => show_Z y ++ ["009"%char] ++ join ["009"%char] (map show_Z b) end) with (join ["009"%char] (show_Z y :: map show_Z b)) in H.
    rewrite !join_cons, <- !app_assoc, !map_map in H. change (fun x0 => ["009"%char] ++ show_Z x0) with tab_Z in H.
    apply show_Z_split in H; [|destruct a; st|destruct b; st]. destruct H as [-> H]. apply TS in H; [|st|st]. destruct H as [-> H]. apply app_inv_head in H. apply app_inv_head in H. auto.
Qed.
Lemma rows_inj l m : concat (map row_text l) = concat (map row_text m) -> l = m.
Proof.
  revert m. induction l as [|a l IH]; intros [|b m] H; cbn [map concat] in H.
  - reflexivity.
  - discriminate H.
  - discriminate H.
  - apply row_split in H. destruct H as [-> H]. f_equal. auto.
Qed.
Lemma show_mat_rows M : wf M -> show_mat M = Some (["010"%char] ++ concat (map row_text (rws M))).
Proof.
  intros (W1 & W2). unfold show_mat. rewrite (omapM_ok _ (fun i => row_text (nth i (rws M) []))).
  - cbn [obind]. do 3 f_equal. rewrite <- W1. generalize (rws M). intros l. clear. induction l as [|r l IH]; [reflexivity|]. cbn [length seq map]. rewrite <- seq_shift, map_map. f_equal. exact IH.
  - intros i Hi. apply in_seq in Hi. unfold show_mrow. assert (Hr : exists r, nth_error (rws M) i = Some r /\ nth i (rws M) [] = r /\ length r = nc M).
    { destruct (nth_error (rws M) i) as [r|] eqn:E; [|apply nth_error_None in E; lia]. exists r. split; [reflexivity|]. split; [now apply nth_error_nth|]. rewrite Forall_forall in W2. apply W2. eapply nth_error_In. eassumption. }
    destruct Hr as (r & Er & En & Lr).
    rewrite (omapM_ok _ (fun j => show_Z (nth j r 0%Z) ++ (if j =? nc M - 1 then [] else ["009"%char]))).
    + cbn [obind]. unfold row_text. rewrite En. do 3 f_equal. f_equal. rewrite <- Lr. rewrite <- (join_idx ["009"%char] (map show_Z r) 0). rewrite map_length. cbn [Nat.add].
      pose proof (map_nth_combine (fun iv => snd iv ++ (if fst iv =? length r - 1 then [] else ["009"%char])) (show_Z 0) (map show_Z r) 0) as K. rewrite map_length in K. rewrite <- K. f_equal. apply map_ext_in. intros j Hj. apply in_seq in Hj.
      cbn [fst snd]. rewrite Nat.sub_0_r, (map_nth show_Z). reflexivity.
    + intros j Hj. apply in_seq in Hj. unfold mget. replace ((i <? nr M) && (j <? nc M)) with true by (symmetry; apply andb_true_iff; split; apply Nat.ltb_lt; lia). rewrite Er. cbn [obind]. rewrite (nth_error_nth' r 0%Z) by lia. reflexivity.
Qed.
