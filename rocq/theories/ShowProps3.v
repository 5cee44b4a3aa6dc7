(** C129: printed sparse matrices; C130: printed sets of labels; C115: the debug form of a simple graph. *)
From Coq Require Import String Ascii List ZArith Bool Lia Sorted.
From Verif Require Import PidModel MatModel MatSpec UtilModel UtilSpec UtilProps GraphModel GraphSpec GraphProofs GraphProps SparseModel SparseSpec SparseProofs SparseProofs2 SparseProps ShowModel ShowModel2 ShowSpec ShowProofs ShowProofs2 ShowProofs3 ShowProofs4 ShowProps.
Import ListNotations.
Open Scope nat_scope.
Open Scope list_scope.

(** One entry, and the order in which the entries come: by rows, in a row by columns. *)
Definition entry_line (e : nat * nat * Z) : text := lit "(" ++ show_nat (fst (fst e)) ++ lit ", " ++ show_nat (snd (fst e)) ++ lit "): " ++ show_Z (snd e).
Definition before (a b : nat * nat * Z) : Prop := fst (fst a) < fst (fst b) \/ fst (fst a) = fst (fst b) /\ snd (fst a) < snd (fst b).

Lemma sorted_app {A} (R : A -> A -> Prop) l m : StronglySorted R l -> StronglySorted R m -> (forall x y, In x l -> In y m -> R x y) -> StronglySorted R (l ++ m).
Proof. intros Hl Hm H. induction Hl as [|a l Hl IH F]; [exact Hm|]. cbn. constructor; [apply IH; intros; apply H; [now right|assumption]|]. apply Forall_app. split; [exact F|]. apply Forall_forall. intros y Hy. apply H; [now left|exact Hy]. Qed.
Theorem C129_text : forall n m (f : nat -> nat -> option Z), inhabited_entries n m f ->
  exists s es, sparse_from n m f = Some s /\ show_sparse s = Some (unlines (map entry_line es)) /\ StronglySorted before es /\ forall i j v, In (i, j, v) es <-> i < n /\ j < m /\ f i j = Some v.
Proof.
  intros n m f H. destruct (C40_iter_partial n m f H) as (s & E & SZ & HR & _). exists s.
  assert (K : forall d, d <= n -> exists es, (exists ts, omapM (show_sparse_row s) (seq 0 d) = Some ts /\ concat ts = unlines (map entry_line es)) /\ StronglySorted before es /\ forall i j v, In (i, j, v) es <-> i < d /\ j < m /\ f i j = Some v).
  { induction d as [|d IH]; intros Hd.
    - exists []. split; [exists []; split; reflexivity|]. split; [constructor|]. intros i j v. cbn. lia.
    - destruct (IH ltac:(lia)) as (es & (ts & Et & Ec) & SS & IN). destruct (HR d ltac:(lia)) as (l & El & SL & IL). exists (es ++ map (fun jv => (d, fst jv, snd jv)) l). split; [|split].
      + exists (ts ++ [concat (map (fun jv => lit "(" ++ show_nat d ++ lit ", " ++ show_nat (fst jv) ++ lit "): " ++ show_Z (snd jv) ++ ["010"%char]) l)]). split.
        * rewrite seq_S. cbn [Nat.add]. assert (OA : forall A C (f : A -> option C) a b x y, omapM f a = Some x -> omapM f b = Some y -> omapM f (a ++ b) = Some (x ++ y)).
          { clear. intros A C f a. induction a as [|u a IH]; intros b x y H1 H2; [injection H1 as <-; exact H2|]. cbn in *. destruct (f u); [|discriminate H1]. cbn in *. destruct (omapM f a) as [w|]; [|discriminate H1]. injection H1 as <-. rewrite (IH b w y eq_refl H2). reflexivity. }
          apply OA; [exact Et|]. cbn [omapM]. unfold show_sparse_row. rewrite El. reflexivity.
        * rewrite concat_app, Ec. cbn [concat]. rewrite app_nil_r. unfold unlines. rewrite !map_app, concat_app. f_equal. f_equal. rewrite !map_map. apply map_ext. intros [j v]. unfold entry_line. cbn [fst snd]. rewrite <- !app_assoc. reflexivity.
      + apply sorted_app; [exact SS| |].
        * clear -SL. induction SL as [|a l SL IH F]; cbn [map]; constructor; [exact IH|]. rewrite Forall_map. revert F. apply Forall_impl. intros b Hb. right. cbn. auto.
        * intros [[i j] v] y H1 H2. apply IN in H1. apply in_map_iff in H2 as ([j' v'] & <- & _). left. cbn. lia.
      + intros i j v. rewrite in_app_iff, IN, in_map_iff. split.
        * intros [(H1 & H2 & H3)|([j' v'] & Q & Q')]; [repeat split; try assumption; lia|]. cbn [fst snd] in Q. injection Q as <- <- <-. apply IL in Q' as (Q1 & Q2). repeat split; [lia|exact Q1|exact Q2].
        * intros (H1 & H2 & H3). destruct (Nat.eq_dec i d) as [->|N]; [right; exists (j, v); split; [reflexivity|]; apply IL; split; assumption|left; repeat split; try assumption; lia]. }
  destruct (K n ltac:(lia)) as (es & (ts & Et & Ec) & SS & IN). exists es. split; [exact E|]. split; [|split; [exact SS|exact IN]]. unfold show_sparse. rewrite SZ. cbn [fst]. rewrite Et. cbn [obind]. now rewrite Ec.
Qed.
Print Assumptions C129_text.
Lemma entry_split a b r s : entry_line a ++ "010"%char :: r = entry_line b ++ "010"%char :: s -> a = b /\ r = s.
Proof.
  destruct a as [[i j] v], b as [[i' j'] v']. unfold entry_line. cbn [fst snd]. rewrite <- !app_assoc. intros H. apply app_inv_head in H. apply show_nat_split in H; [|st|st]. destruct H as [-> H]. apply app_inv_head in H. apply show_nat_split in H; [|st|st]. destruct H as [-> H]. apply app_inv_head in H. apply show_Z_split in H; [|st|st]. destruct H as [-> H]. injection H as ->. auto.
Qed.
Lemma entries_inj l : forall m, unlines (map entry_line l) = unlines (map entry_line m) -> l = m.
Proof.
  unfold unlines. induction l as [|a l IH]; intros [|b m] H; cbn [map concat] in H; [reflexivity|exfalso; unfold entry_line in H; discriminate H|exfalso; unfold entry_line in H; discriminate H|].
  rewrite <- !app_assoc in H. apply (entry_split a b) in H. destruct H as [-> H]. f_equal. now apply IH.
Qed.
Lemma before_unique l : forall m, StronglySorted before l -> StronglySorted before m -> (forall x, In x l <-> In x m) -> l = m.
Proof.
  assert (IR : forall a, ~ before a a) by (intros a [H|[_ H]]; lia). assert (AS : forall a b, before a b -> before b a -> False) by (intros a b [H|[H1 H2]] [K|[K1 K2]]; lia).
  induction l as [|a l IH]; intros [|b m] Hl Hm H.
  - reflexivity.
  - destruct (proj2 (H b)); now left.
  - destruct (proj1 (H a)); now left.
  - inversion Hl as [|? ? Sl Fl]; inversion Hm as [|? ? Sm Fm]; subst. rewrite Forall_forall in Fl, Fm.
    assert (a = b). { destruct (proj1 (H a) (or_introl eq_refl)) as [E|E]; [now symmetry|]. destruct (proj2 (H b) (or_introl eq_refl)) as [E'|E']; [exact E'|]. exfalso. apply (AS a b); [now apply Fl|now apply Fm]. }
    subst b. f_equal. apply IH; try assumption. intros x. split; intros Hx.
    + destruct (proj1 (H x) (or_intror Hx)) as [->|]; [|assumption]. exfalso. now apply (IR x), Fl.
    + destruct (proj2 (H x) (or_intror Hx)) as [->|]; [|assumption]. exfalso. now apply (IR x), Fm.
Qed.
(** Two sparse matrices print alike exactly when they have the same entries at the same places. *)
Theorem C129_alike : forall n m (f : nat -> nat -> option Z) n' m' (f' : nat -> nat -> option Z) s s', inhabited_entries n m f -> inhabited_entries n' m' f' -> sparse_from n m f = Some s -> sparse_from n' m' f' = Some s' ->
  exists t t', show_sparse s = Some t /\ show_sparse s' = Some t' /\ (t = t' <-> forall i j v, i < n /\ j < m /\ f i j = Some v <-> i < n' /\ j < m' /\ f' i j = Some v).
Proof.
  intros n m f n' m' f' s s' H H' E E'. destruct (C129_text n m f H) as (s1 & es & E1 & T & SS & IN). rewrite E in E1. injection E1 as <-. destruct (C129_text n' m' f' H') as (s1 & es' & E1 & T' & SS' & IN'). rewrite E' in E1. injection E1 as <-.
  eexists. eexists. split; [exact T|]. split; [exact T'|]. split.
  - intros K. apply entries_inj in K. subst es'. intros i j v. now rewrite <- IN, <- IN'.
  - intros K. do 2 f_equal. apply before_unique; try assumption. intros [[i j] v]. rewrite IN, IN'. apply K.
Qed.
Print Assumptions C129_alike.
(** The size is not shown ... *)
Theorem C129_size_refuted : exists (f : nat -> nat -> option Z) s s' t, sparse_from 2 2 f = Some s /\ sparse_from 3 5 f = Some s' /\ s_size s <> s_size s' /\ show_sparse s = Some t /\ show_sparse s' = Some t.
Proof.
  set (f := fun i j => if (i =? 1) && (j =? 0) then Some 7%Z else None).
  destruct (sparse_from 2 2 f) as [s|] eqn:E; [|vm_compute in E; discriminate E]. destruct (sparse_from 3 5 f) as [s'|] eqn:E'; [|vm_compute in E'; discriminate E'].
  exists f, s, s', (lit "(1, 0): 7" ++ ["010"%char]). split; [exact E|]. split; [exact E'|]. vm_compute in E, E'. injection E as <-. injection E' as <-. split; [discriminate|]. split; vm_compute; reflexivity.
Qed.
Print Assumptions C129_size_refuted.
(** ... and a matrix without entries cannot be printed. *)
Theorem C129_panics : forall n m (f : nat -> nat -> option Z), (forall i j, i < n -> j < m -> f i j = None) -> exists s, sparse_from n m f = Some s /\ (0 < n -> show_sparse s = None).
Proof.
  intros n m f H. destruct (C40_refuted_empty n m f H) as (s & E & HR & _). exists s. split; [exact E|]. intros Hn. assert (SZ : s_size s = (n, m)) by (destruct (proj2 (sparse_from_ok n m f) H) as (s1 & E1 & SZ & _); rewrite E in E1; injection E1 as <-; exact SZ).
  unfold show_sparse. rewrite SZ. cbn [fst]. destruct n as [|n]; [lia|]. cbn [seq omapM]. unfold show_sparse_row at 1. rewrite HR. reflexivity.
Qed.
Print Assumptions C129_panics.
Example C129_nontrivial : inhabited_entries 2 3 (fun i j => if i <? j then Some (Z.of_nat j - 2)%Z else None) /\
  (do s <- sparse_from 2 3 (fun i j => if i <? j then Some (Z.of_nat j - 2)%Z else None); option_map str (show_sparse s)) = Some "(0, 1): -1
(0, 2): 0
(1, 2): 0
"%string.
Proof. split; [exists 0, 1; split; [lia|]; split; [lia|discriminate]|vm_compute; reflexivity]. Qed.

(** C115, the debug form: row [i] is indented by [i] columns of width two and marks the neighbours after [i] by '+'. *)
Definition debug_line (g : rawg) (i : nat) : text :=
  concat (repeat (lit "  ") i) ++ (if i <? 10 then lit " " else []) ++ show_nat i ++ concat (map (fun j => " "%char :: (if edge g i j then lit "+" else lit " ")) (seq (i + 1) (g_n_vertices g - (i + 1)))).
Theorem C115_debug_text : forall g, made g -> debug_rawg g = Some (unlines (map (debug_line g) (seq 0 (g_n_vertices g)))).
Proof.
  intros g Mg. pose proof (made_GI g Mg) as HG. unfold debug_rawg. rewrite (omapM_ok _ (fun i => debug_line g i ++ ["010"%char])).
  - cbn [obind]. unfold unlines. now rewrite map_map.
  - intros i Hi. apply in_seq in Hi. unfold debug_row. rewrite (omapM_ok _ (fun j => " "%char :: (if edge g i j then lit "+" else lit " "))).
    + cbn [obind]. unfold debug_line. rewrite <- !app_assoc. reflexivity.
    + intros j Hj. apply in_seq in Hj. rewrite (contains_edge g i j HG) by lia. cbn [obind]. destruct (edge g i j); reflexivity.
Qed.
Print Assumptions C115_debug_text.
Lemma marks_split (b c : nat -> bool) l m r s : concat (map (fun j : nat => " "%char :: (if b j then lit "+" else lit " ")) l) ++ "010"%char :: r = concat (map (fun j => " "%char :: (if c j then lit "+" else lit " ")) m) ++ "010"%char :: s -> map b l = map c m /\ r = s.
Proof.
  revert m. induction l as [|x l IH]; intros [|y m] H; cbn [map concat app] in H; [injection H as ->; auto|discriminate H|discriminate H|].
  destruct (b x) eqn:B, (c y) eqn:C; cbn in H; try discriminate H; injection H as H; apply IH in H; destruct H as [H ->]; cbn [map]; rewrite B, C, H; auto.
Qed.
Theorem C115_debug : forall g h, made g -> made h ->
  exists tg th, debug_rawg g = Some tg /\ debug_rawg h = Some th /\ (tg = th <-> g_n_vertices g = g_n_vertices h /\ forall i j, edge g i j = edge h i j).
Proof.
  intros g h Mg Mh. pose proof (made_GI g Mg) as HG. pose proof (made_GI h Mh) as HH. eexists. eexists. split; [now apply C115_debug_text|]. split; [now apply C115_debug_text|]. split.
  - intros H.
    assert (K : forall a b s, unlines (map (debug_line g) (seq s a)) = unlines (map (debug_line h) (seq s b)) -> a = b /\ forall i, s <= i < s + a -> map (edge g i) (seq (i + 1) (g_n_vertices g - (i + 1))) = map (edge h i) (seq (i + 1) (g_n_vertices h - (i + 1)))).
    { clear. unfold unlines. induction a as [|a IH]; intros [|b] s H; cbn [seq map concat] in H.
      - split; [reflexivity|intros; lia].
      - exfalso. destruct (debug_line h s); discriminate H.
      - exfalso. destruct (debug_line g s); discriminate H.
      - rewrite <- !app_assoc in H. unfold debug_line at 1 3 in H. rewrite <- !app_assoc in H. do 3 apply app_inv_head in H. apply marks_split in H. destruct H as [H1 H2]. destruct (IH b (S s) H2) as [-> H3]. split; [reflexivity|]. intros i Hi. destruct (Nat.eq_dec i s) as [->|N]; [exact H1|apply H3; lia]. }
    destruct (K _ _ _ H) as [EN EE]. split; [exact EN|].
    assert (LT : forall i j, i < j -> edge g i j = edge h i j).
    { intros i j Hij. destruct (Nat.lt_ge_cases j (g_n_vertices g)) as [L|L].
      - specialize (EE i ltac:(lia)). rewrite EN in EE, L. apply (f_equal (fun x => nth_error x (j - (i + 1)))) in EE. rewrite !nth_error_map, !(nth_error_nth' _ 0) in EE by (rewrite seq_length; lia). rewrite seq_nth in EE by lia. cbn [option_map] in EE. replace (i + 1 + (j - (i + 1))) with j in EE by lia. congruence.
      - destruct (edge g i j) eqn:A; [apply edge_lt in A; [unfold g_n_vertices in *; lia|exact HG]|]. destruct (edge h i j) eqn:B; [apply edge_lt in B; [unfold g_n_vertices in *; lia|exact HH]|]. reflexivity. }
    intros i j. destruct (Nat.lt_trichotomy i j) as [L|[->|L]]; [now apply LT| |rewrite (edge_sym g), (edge_sym h); now apply LT].
    destruct (edge g j j) eqn:A; [apply edge_lt in A; [lia|exact HG]|]. destruct (edge h j j) eqn:B; [apply edge_lt in B; [lia|exact HH]|]. reflexivity.
  - intros [N E]. f_equal. rewrite N. apply map_ext. intros i. unfold debug_line. rewrite N. do 4 f_equal. apply map_ext. intros j. now rewrite E.
Qed.
Print Assumptions C115_debug.
Example C115_debug_nontrivial : (do g <- run_graph 4 [OpAdd 0 2; OpAdd 1 3; OpAdd 2 3]; option_map str (debug_rawg g)) = Some " 0   +  
   1   +
     2 +
       3
"%string.
Proof. vm_compute. reflexivity. Qed.

(** C130: a set of labels prints its members in the order of the labels. *)
Theorem C130_text : forall (T : Type) (eqb : T -> T -> bool) (show_t : T -> text), (forall x y, eqb x y = true <-> x = y) -> forall labels (h : list (lop T)), NoDup labels -> (forall o, In o h -> In (target o) labels) ->
  exists s, fold_left (lstep eqb) h (Some (lset_new labels)) = Some s /\ show_lset show_t s = Some (lit "{" ++ join (lit ", ") (map show_t (filter (after eqb h) labels)) ++ lit "}").
Proof.
  intros T eqb show_t He labels h ND Hh. destruct (proj1 (C05_labeled_set T eqb He labels h ND) Hh) as (s & E & EI & _). exists s. split; [exact E|]. unfold show_lset. rewrite EI. cbn [obind]. destruct (filter (after eqb h) labels) as [|x r]; [reflexivity|]. cbn [map]. rewrite join_cons, map_map. reflexivity.
Qed.
Print Assumptions C130_text.
Lemma nats_inj l m : join (lit ", ") (map show_nat l) ++ lit "}" = join (lit ", ") (map show_nat m) ++ lit "}" -> l = m.
Proof.
  assert (R : forall a b, concat (map (fun y => lit ", " ++ show_nat y) a) ++ lit "}" = concat (map (fun y => lit ", " ++ show_nat y) b) ++ lit "}" -> a = b).
  { assert (S0 : forall a, stops ndigit (concat (map (fun y => lit ", " ++ show_nat y) a) ++ lit "}")) by (intros [|x a]; reflexivity).
    induction a as [|x a IH]; intros [|y b] H; cbn [map concat app] in H; try discriminate H; [reflexivity|]. rewrite <- !app_assoc in H. apply app_inv_head in H. apply show_nat_split in H; [|apply S0|apply S0]. destruct H as [-> H]. f_equal. now apply IH. }
  assert (N0 : forall x t, show_nat x ++ t <> lit "}") by (intros x t K; destruct (show_nat_head x) as (d & q & E & D); rewrite E in K; injection K as K _; subst d; discriminate D).
  destruct l as [|x l], m as [|y m]; cbn [map]; rewrite ?join_cons, ?map_map, <- ?app_assoc; intros H; [reflexivity|symmetry in H; now apply N0 in H|now apply N0 in H|].
  apply show_nat_split in H; [destruct H as [-> H]; f_equal; now apply R|destruct l; reflexivity|destruct m; reflexivity].
Qed.
(** For numbers as labels two sets over the same labels print alike exactly when they have the same members. *)
Theorem C130_numbers : forall labels (h h' : list (lop nat)) s s', NoDup labels -> (forall o, In o h -> In (target o) labels) -> (forall o, In o h' -> In (target o) labels) ->
  fold_left (lstep Nat.eqb) h (Some (lset_new labels)) = Some s -> fold_left (lstep Nat.eqb) h' (Some (lset_new labels)) = Some s' ->
  exists t t', show_lset show_nat s = Some t /\ show_lset show_nat s' = Some t' /\ (t = t' <-> forall x, In x labels -> after Nat.eqb h x = after Nat.eqb h' x).
Proof.
  intros labels h h' s s' ND Hh Hh' E E'. destruct (C130_text nat Nat.eqb show_nat Nat.eqb_eq labels h ND Hh) as (s1 & E1 & T). rewrite E in E1. injection E1 as <-. destruct (C130_text nat Nat.eqb show_nat Nat.eqb_eq labels h' ND Hh') as (s1 & E1 & T'). rewrite E' in E1. injection E1 as <-.
  eexists. eexists. split; [exact T|]. split; [exact T'|]. split.
  - intros K x Hx. apply app_inv_head in K. apply nats_inj in K. assert (Q : In x (filter (after Nat.eqb h) labels) <-> In x (filter (after Nat.eqb h') labels)) by (rewrite K; tauto). rewrite !filter_In in Q. destruct (after Nat.eqb h x), (after Nat.eqb h' x); tauto || (destruct Q as [Q1 Q2]; first [destruct Q1|destruct Q2]; auto).
  - intros K. do 4 f_equal. apply filter_ext_in. exact K.
Qed.
Print Assumptions C130_numbers.
(** Labels that contain the separator print ambiguously. *)
Theorem C130_refuted : exists (labels : list string) (h h' : list (lop string)) s s' t, NoDup labels /\ (forall o, In o (h ++ h') -> In (target o) labels) /\
  fold_left (lstep String.eqb) h (Some (lset_new labels)) = Some s /\ fold_left (lstep String.eqb) h' (Some (lset_new labels)) = Some s' /\
  show_lset lit s = Some t /\ show_lset lit s' = Some t /\ after String.eqb h "a"%string <> after String.eqb h' "a"%string.
Proof.
  exists ["a"; "b"; "a, b"]%string, [LAdd "a"%string; LAdd "b"%string], [LAdd "a, b"%string].
  destruct (fold_left (lstep String.eqb) [LAdd "a"%string; LAdd "b"%string] (Some (lset_new ["a"; "b"; "a, b"]%string))) as [s|] eqn:E; [|vm_compute in E; discriminate E].
  destruct (fold_left (lstep String.eqb) [LAdd "a, b"%string] (Some (lset_new ["a"; "b"; "a, b"]%string))) as [s'|] eqn:E'; [|vm_compute in E'; discriminate E'].
  exists s, s', (lit "{a, b}"). vm_compute in E, E'. injection E as <-. injection E' as <-.
  split; [repeat constructor; cbn; intuition discriminate|]. split; [intros o [<-|[<-|[<-|[]]]]; cbn; auto|]. split; [vm_compute; reflexivity|]. split; [vm_compute; reflexivity|]. split; [vm_compute; reflexivity|]. split; [vm_compute; reflexivity|]. vm_compute. discriminate.
Qed.
Print Assumptions C130_refuted.
Example C130_nontrivial : NoDup [7; 30; 2] /\ (do s <- fold_left (lstep Nat.eqb) [LAdd 2; LAdd 30; LAdd 7; LRemove 30] (Some (lset_new [7; 30; 2])); option_map str (show_lset show_nat s)) = Some "{7, 2}"%string.
Proof. split; [repeat constructor; cbn; intuition discriminate|vm_compute; reflexivity]. Qed.
