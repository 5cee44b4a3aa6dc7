(** [Graph::from]: labels, multiplicities, counts. *)
From Coq Require Import List Arith ZArith Bool Lia ZifyBool ZifyNat String.
From Verif Require Import UtilModel PidModel PermModel MatModel MatProofs SnfModel GraphModel LabGraphModel LabGraphSpec.
Import ListNotations.
Open Scope nat_scope.

(** ** Labels *)
Lemma has_iff v l : has v l = true <-> In v l.
Proof.
  unfold has. rewrite existsb_exists. split; [intros (x & H & E); apply String.eqb_eq in E; congruence|]. intros H. exists v. split; [exact H|]. apply String.eqb_refl.
Qed.
Lemma register_in l v x : In x (register l v) <-> In x l \/ x = v.
Proof.
  unfold register. destruct (has v l) eqn:E; [apply has_iff in E; split; [auto|intros [H| ->]; assumption]|]. rewrite in_app_iff. cbn [In]. intuition.
Qed.
Lemma register_NoDup l v : NoDup l -> NoDup (register l v).
Proof.
  intros H. unfold register. destruct (has v l) eqn:E; [exact H|]. apply NoDup_rev in H. rewrite <- (rev_involutive (l ++ [v])). apply NoDup_rev. rewrite rev_app_distr. cbn [rev app]. constructor; [|exact H].
  rewrite <- in_rev. intros K. apply has_iff in K. congruence.
Qed.
Lemma fold_register_NoDup es l : NoDup l -> NoDup (fold_left (fun l (e : string * string) => register (register l (fst e)) (snd e)) es l).
Proof. revert l. induction es as [|e es IH]; intros l H; cbn [fold_left]; [exact H|]. apply IH. now do 2 apply register_NoDup. Qed.
Lemma fold_register_in es l x : In x (fold_left (fun l (e : string * string) => register (register l (fst e)) (snd e)) es l) <-> In x l \/ mentions es x.
Proof.
  revert l. induction es as [|e es IH]; intros l; cbn [fold_left].
  - split; [auto|]. intros [H|(e & [] & _)]. exact H.
  - rewrite IH, !register_in. unfold mentions. split.
    + intros [[[H|H]|H]|(f & H & K)]; [now left|right; exists e; split; [now left|left; congruence]|right; exists e; split; [now left|right; congruence]|]. right. exists f. split; [now right|exact K].
    + intros [H|(f & [<-|H] & K)]; [now do 3 left| |right; now exists f]. left. destruct K as [K|K]; [left; right|right]; congruence.
Qed.
Lemma registered_NoDup es : NoDup (registered es).
Proof. apply fold_register_NoDup. constructor. Qed.
Lemma registered_in es x : In x (registered es) <-> mentions es x.
Proof. unfold registered. rewrite fold_register_in. cbn [In]. tauto. Qed.

Lemma position_some l v i : position v l = Some i -> i < List.length l /\ nth i l EmptyString = v.
Proof.
  revert i. induction l as [|x l IH]; intros i; cbn [position]; [discriminate|]. destruct (String.eqb_spec x v) as [E|E]; [intros [= <-]; cbn [nth List.length]; split; [lia|exact E]|].
  destruct (position v l) as [k|]; [|discriminate]. cbn [option_map]. intros [= <-]. destruct (IH k eq_refl). cbn [nth List.length]. split; [lia|assumption].
Qed.
Lemma position_in l v : In v l -> exists i, position v l = Some i.
Proof.
  induction l as [|x l IH]; [intros []|]. intros H. cbn [position]. destruct (String.eqb_spec x v) as [E|E]; [now exists 0|]. destruct H as [H|H]; [congruence|]. destruct (IH H) as (i & ->). now exists (S i).
Qed.
Lemma position_none l v : position v l = None <-> ~ In v l.
Proof.
  split.
  - intros E H. destruct (position_in l v H) as (i & K). congruence.
  - intros H. destruct (position v l) as [i|] eqn:E; [|reflexivity]. apply position_some in E. destruct E as [E1 E2]. exfalso. apply H. rewrite <- E2. now apply nth_In.
Qed.
Lemma label_inj l i j : NoDup l -> i < List.length l -> j < List.length l -> nth i l EmptyString = nth j l EmptyString -> i = j.
Proof. intros H. now apply NoDup_nth. Qed.

(** ** Tables *)
Definition tab {A} (n : nat) (c : nat -> nat -> A) : list (list A) := map (fun i => map (fun j => c i j) (seq 0 n)) (seq 0 n).
Lemma tab_ext {A} n (c c' : nat -> nat -> A) : (forall i j, i < n -> j < n -> c i j = c' i j) -> tab n c = tab n c'.
Proof. intros H. unfold tab. apply map_ext_in. intros i Hi. apply map_ext_in. intros j Hj. apply in_seq in Hi, Hj. apply H; lia. Qed.
Lemma cell_tab n c i j : i < n -> j < n -> cell (tab n c) i j = Some (c i j).
Proof. intros Hi Hj. unfold cell, tab. rewrite map_seq_nth_error by exact Hi. cbn [obind]. now rewrite map_seq_nth_error. Qed.
Lemma cell_tab_out n c i j : n <= i \/ n <= j -> cell (tab n c) i j = None.
Proof.
  intros H. unfold cell, tab. destruct (Nat.lt_ge_cases i n) as [K|K].
  - rewrite map_seq_nth_error by exact K. cbn [obind]. apply nth_error_None. rewrite map_length, seq_length. lia.
  - replace (nth_error _ i) with (@None (list nat)); [reflexivity|]. symmetry. apply nth_error_None. rewrite map_length, seq_length. lia.
Qed.
Lemma lset_map_seq {A} n (f : nat -> A) i x : i < n -> lset (map f (seq 0 n)) i x = map (fun k => if k =? i then x else f k) (seq 0 n).
Proof.
  intros H. apply nth_ext with x x; [rewrite lset_length, !map_length; reflexivity|]. intros k Hk. rewrite lset_length, map_length, seq_length in Hk.
  rewrite lset_nth by (rewrite map_length, seq_length; lia). rewrite !map_seq_nth by lia. reflexivity.
Qed.
Lemma bump_tab n c i j : i < n -> j < n -> bump (tab n c) i j = Some (tab n (fun x y => if (x =? i) && (y =? j) then S (c x y) else c x y)).
Proof.
  intros Hi Hj. unfold bump, tab. rewrite map_seq_nth_error by exact Hi. cbn [obind]. rewrite map_seq_nth_error by exact Hj. cbn [obind]. f_equal. rewrite lset_map_seq by exact Hi. apply map_ext_in. intros x Hx.
  destruct (Nat.eqb_spec x i) as [->|N]; cbn [andb]; [|reflexivity]. rewrite lset_map_seq by exact Hj. apply map_ext_in. intros y Hy. now destruct (Nat.eqb_spec y j) as [->|].
Qed.
Lemma tab_repeat n : repeat (repeat 0 n) n = tab n (fun _ _ => 0).
Proof.
  unfold tab. assert (K : forall A (x : A) m, repeat x m = map (fun _ => x) (seq 0 m)).
  { intros A x m. generalize 0. induction m as [|m IH]; intros k; cbn [repeat seq map]; [reflexivity|]. now rewrite (IH (S k)). }
  rewrite (K _ (repeat 0 n)). apply map_ext. intros i. now rewrite K.
Qed.

(** ** The loop over the edges *)
Lemma same_ends_sym e f : same_ends e f = same_ends f e.
Proof. unfold same_ends. rewrite (String.eqb_sym (fst f)), (String.eqb_sym (snd f)), (String.eqb_sym (fst f)), (String.eqb_sym (snd f)). destruct (fst e =? fst f)%string, (snd e =? snd f)%string, (fst e =? snd f)%string, (snd e =? fst f)%string; reflexivity. Qed.
Lemma same_ends_iff e f : same_ends e f = true <-> (fst e = fst f /\ snd e = snd f) \/ (fst e = snd f /\ snd e = fst f).
Proof. unfold same_ends. rewrite orb_true_iff, !andb_true_iff, !String.eqb_eq. reflexivity. Qed.
Lemma same_ends_flip a b f : same_ends (b, a) f = same_ends (a, b) f.
Proof. unfold same_ends. cbn [fst snd]. destruct (a =? fst f)%string, (b =? snd f)%string, (a =? snd f)%string, (b =? fst f)%string; reflexivity. Qed.
Lemma mult_flip es a b : mult es b a = mult es a b.
Proof. unfold mult. f_equal. apply filter_ext. intros f. apply same_ends_flip. Qed.
Lemma mult_rev es a b : mult (rev es) a b = mult es a b.
Proof.
  unfold mult. induction es as [|e es IH]; [reflexivity|]. cbn [rev filter]. rewrite filter_app, app_length, IH. cbn [filter]. destruct (same_ends (a, b) e); cbn [List.length]; lia.
Qed.
Lemma existsb_mult e seen : existsb (same_ends e) seen = (0 <? mult seen (fst e) (snd e)).
Proof.
  unfold mult. rewrite <- surjective_pairing. induction seen as [|f l IH]; [reflexivity|]. cbn [existsb filter]. destruct (same_ends e f); cbn [List.length orb]; [symmetry; apply Nat.ltb_lt; lia|exact IH].
Qed.
Lemma firsts_le seen es : List.length (firsts seen es) <= List.length es.
Proof. revert seen. induction es as [|e es IH]; intros seen; cbn [firsts List.length]; [lia|]. specialize (IH (e :: seen)). destruct (existsb _ seen); cbn [List.length]; lia. Qed.
Lemma loops_le es : List.length (loops es) <= List.length es.
Proof. unfold loops. induction es as [|e es IH]; cbn [filter List.length]; [lia|]. destruct (is_loop e); cbn [List.length]; lia. Qed.
Lemma loops_split es : List.length (loops es) + List.length (non_loops es) = List.length es.
Proof. unfold loops, non_loops. induction es as [|e es IH]; cbn [filter List.length]; [lia|]. destruct (is_loop e); cbn [List.length negb]; lia. Qed.

Section Loop.
  Variable L : list string.
  Hypothesis ND : NoDup L.
  Let n := List.length L.
  Let lab i := nth i L EmptyString.
  Definition mcell (seen : list (string * string)) (i j : nat) : nat := if i <=? j then mult seen (nth i L EmptyString) (nth j L EmptyString) else 0.
  Lemma edge_indices e : In (fst e) L -> In (snd e) L -> exists v w, v <= w /\ w < n /\ (let v0 := position (fst e) L in let w0 := position (snd e) L in exists a b, v0 = Some a /\ w0 = Some b /\ (if a <=? b then (a, b) else (b, a)) = (v, w)) /\
    (forall f, same_ends (lab v, lab w) f = same_ends e f) /\ (v =? w) = is_loop e.
  Proof.
    intros H1 H2. destruct (position_in L _ H1) as (a & Ea), (position_in L _ H2) as (b & Eb). destruct (position_some L _ _ Ea) as [A1 A2], (position_some L _ _ Eb) as [B1 B2].
    assert (EL : forall x y, x < n -> y < n -> (x =? y) = String.eqb (lab x) (lab y)).
    { intros x y Hx Hy. destruct (String.eqb_spec (lab x) (lab y)) as [E|E]; [apply Nat.eqb_eq; now apply (label_inj L)|]. apply Nat.eqb_neq. intros ->. congruence. }
    unfold lab in *. destruct (Nat.leb_spec a b) as [K|K].
    - exists a, b. split; [exact K|]. split; [exact B1|]. split; [exists a, b; cbn zeta; repeat split; auto; now replace (a <=? b) with true by lia|]. rewrite A2, B2. split; [intros f; now rewrite <- surjective_pairing|].
      rewrite EL by assumption. now rewrite A2, B2.
    - exists b, a. split; [lia|]. split; [exact A1|]. split; [exists a, b; cbn zeta; repeat split; auto; now replace (a <=? b) with false by lia|]. rewrite A2, B2. split; [intros f; rewrite same_ends_flip; now rewrite <- surjective_pairing|].
      rewrite EL by assumption. rewrite A2, B2. unfold is_loop. apply String.eqb_sym.
  Qed.
  Lemma mcell_cons e seen v w : v <= w -> w < n -> (forall f, same_ends (lab v, lab w) f = same_ends e f) ->
    forall i j, i < n -> j < n -> (if (i =? v) && (j =? w) then S (mcell seen i j) else mcell seen i j) = mcell (e :: seen) i j.
  Proof.
    intros Hvw Hw HS i j Hi Hj. unfold mcell. destruct (Nat.leb_spec i j) as [K|K]; [|replace ((i =? v) && (j =? w)) with false by lia; reflexivity].
    unfold mult. cbn [filter]. fold (lab i) (lab j). assert (E : same_ends (lab i, lab j) e = (i =? v) && (j =? w)).
    { rewrite same_ends_sym, <- HS. destruct ((i =? v) && (j =? w)) eqn:C; [assert (i = v /\ j = w) as [-> ->] by lia; apply same_ends_iff; left; split; reflexivity|].
      destruct (same_ends (lab v, lab w) (lab i, lab j)) eqn:E; [|reflexivity]. apply same_ends_iff in E. cbn [fst snd] in E. destruct E as [[E1 E2]|[E1 E2]]; apply (label_inj L) in E1, E2; try assumption; fold n; lia. }
    rewrite E. destruct ((i =? v) && (j =? w)); reflexivity.
  Qed.
  Lemma edges_loop es : forall seen nl nm lo, (forall e, In e es -> In (fst e) L /\ In (snd e) L) ->
    List.length (loops es) <= nl ->
    foldM (register_edge L) es (tab n (mcell seen), nl, nm, lo) =
    let d := List.length es - List.length (firsts seen es) + List.length (loops es) in
    if d <=? nm then Some (tab n (mcell (rev es ++ seen)), nl - List.length (loops es), nm - d, lo + List.length (loops es)) else None.
  Proof.
    induction es as [|e es IH]; intros seen nl nm lo HL Hnl.
    - cbn [foldM List.length firsts loops filter rev app]. cbn zeta. replace (_ <=? nm) with true by lia. f_equal. f_equal; [f_equal; [f_equal|]|]; lia.
    - destruct (edge_indices e) as (v & w & Hvw & Hw & (a & b & Ea & Eb & Eo) & HS & Hlp); [apply HL; now left|apply HL; now left|].
      cbn [foldM]. unfold register_edge at 1. rewrite Ea, Eb. cbn [obind]. rewrite Eo. rewrite bump_tab by lia. cbn [obind]. rewrite cell_tab by lia. cbn [obind].
      rewrite !Nat.eqb_refl. cbn [andb]. replace (tab n _) with (tab n (mcell (e :: seen))) by (symmetry; apply tab_ext; now apply mcell_cons).
      assert (Hc : (1 <? S (mcell seen v w)) = existsb (same_ends e) seen).
      { rewrite existsb_mult. unfold mcell. replace (v <=? w) with true by lia. unfold mult. fold (lab v) (lab w). rewrite (filter_ext _ _ HS). rewrite <- surjective_pairing. destruct (List.length _); reflexivity. }
      rewrite Hc, Hlp. pose proof (firsts_le (e :: seen) es) as F1. pose proof (loops_le es) as F2. cbn [rev]. rewrite <- app_assoc. cbn [app].
      assert (Hl : loops (e :: es) = if is_loop e then e :: loops es else loops es) by reflexivity. rewrite Hl in *. cbn [firsts].
      assert (HL' : forall f, In f es -> In (fst f) L /\ In (snd f) L) by (intros; apply HL; now right).
      destruct (existsb (same_ends e) seen), (is_loop e); cbn [List.length] in *; cbn zeta.
      + destruct nl as [|nl]; [lia|]. destruct nm as [|[|nm]]; cbn [dec1 obind]; [now replace (_ <=? 0) with false by lia|now replace (_ <=? 1) with false by lia|].
        rewrite (IH (e :: seen) nl nm (S lo) HL') by lia. cbn zeta. destruct (Nat.leb_spec (List.length es - List.length (firsts (e :: seen) es) + List.length (loops es)) nm) as [K|K]; [|now replace (_ <=? S (S nm)) with false by lia].
        replace (_ <=? S (S nm)) with true by lia. repeat (f_equal; try lia).
      + destruct nm as [|nm]; cbn [dec1 obind]; [now replace (_ <=? 0) with false by lia|].
        rewrite (IH (e :: seen) nl nm lo HL') by lia. cbn zeta. destruct (Nat.leb_spec (List.length es - List.length (firsts (e :: seen) es) + List.length (loops es)) nm) as [K|K]; [|now replace (_ <=? S nm) with false by lia].
        replace (_ <=? S nm) with true by lia. repeat (f_equal; try lia).
      + destruct nl as [|nl]; [lia|]. destruct nm as [|nm]; cbn [dec1 obind]; [now replace (_ <=? 0) with false by lia|].
        rewrite (IH (e :: seen) nl nm (S lo) HL') by lia. cbn zeta. destruct (Nat.leb_spec (List.length es - List.length (firsts (e :: seen) es) + List.length (loops es)) nm) as [K|K]; [|now replace (_ <=? S nm) with false by lia].
        replace (_ <=? S nm) with true by lia. repeat (f_equal; try lia).
      + cbn [obind]. rewrite (IH (e :: seen) nl nm lo HL') by lia. cbn zeta. destruct (Nat.leb_spec (List.length es - List.length (firsts (e :: seen) es) + List.length (loops es)) nm) as [K|K]; [|now replace (_ <=? nm) with false by lia].
        replace (_ <=? nm) with true by lia. repeat (f_equal; try lia).
  Qed.
End Loop.

Definition gtab (es : list (string * string)) : list (list nat) := tab (List.length (registered es)) (mcell (registered es) es).
Lemma graph_from_spec es : graph_from es =
  if List.length (loops es) <=? List.length (classes es)
  then Some (LG (gtab es) (registered es) (List.length (non_loops es)) (List.length (classes es) - List.length (loops es)) (List.length (loops es)))
  else None.
Proof.
  unfold graph_from. rewrite tab_repeat. set (L := registered es). assert (E0 : tab (List.length L) (fun _ _ => 0) = tab (List.length L) (mcell L [])).
  { apply tab_ext. intros i j _ _. unfold mcell. now destruct (i <=? j). }
  rewrite E0. rewrite (edges_loop L (registered_NoDup es) es [] _ _ 0); [| |apply loops_le].
  - cbn zeta. pose proof (firsts_le [] es) as F. fold (classes es) in *. pose proof (loops_le es) as F2. pose proof (loops_split es) as F3.
    destruct (Nat.leb_spec (List.length (loops es)) (List.length (classes es))) as [K|K]; [|now replace (_ <=? List.length es) with false by lia]. replace (_ <=? List.length es) with true by lia. cbn [obind].
    f_equal. unfold gtab. fold L. rewrite app_nil_r. f_equal; try lia. apply tab_ext. intros i j _ _. unfold mcell. now rewrite mult_rev.
  - intros e He. split; apply registered_in; exists e; (split; [exact He|auto]).
Qed.

(** ** When the count up to multiplicity is right *)
Lemma mult_cons e es v : mult (e :: es) v v = (if same_ends (v, v) e then 1 else 0) + mult es v v.
Proof. unfold mult. cbn [filter]. now destruct (same_ends (v, v) e). Qed.
Lemma same_ends_loop v e : same_ends (v, v) e = true <-> is_loop e = true /\ fst e = v.
Proof. rewrite same_ends_iff. unfold is_loop. rewrite String.eqb_eq. cbn [fst snd]. intuition congruence. Qed.
Lemma firsts_loops_le seen es : List.length (loops (firsts seen es)) <= List.length (loops es).
Proof.
  revert seen. induction es as [|e es IH]; intros seen; [apply Nat.le_refl|]. cbn [firsts]. specialize (IH (e :: seen)). unfold loops in *. destruct (existsb _ seen); cbn [filter]; destruct (is_loop e); cbn [List.length]; lia.
Qed.
Lemma firsts_loops_iff es : forall seen, List.length (loops (firsts seen es)) = List.length (loops es) <->
  forall v, mult es v v <= if mult seen v v =? 0 then 1 else 0.
Proof.
  induction es as [|e es IH]; intros seen.
  - split; [intros _ v; unfold mult; cbn [filter List.length]; lia|reflexivity].
  - cbn [firsts]. specialize (IH (e :: seen)). pose proof (firsts_loops_le (e :: seen) es) as LE. destruct (is_loop e) eqn:EL.
    + assert (Hs : forall v, same_ends (v, v) e = String.eqb v (fst e)).
      { intros v. destruct (String.eqb_spec v (fst e)) as [->|N]; [apply same_ends_loop; auto|]. destruct (same_ends (v, v) e) eqn:K; [|reflexivity]. apply same_ends_loop in K. destruct K as [_ K]. congruence. }
      rewrite existsb_mult. replace (mult seen (fst e) (snd e)) with (mult seen (fst e) (fst e)) by (unfold is_loop in EL; apply String.eqb_eq in EL; congruence).
      assert (Hlo : loops (e :: es) = e :: loops es) by (unfold loops; cbn [filter]; now rewrite EL). rewrite Hlo.
      destruct (Nat.ltb_spec 0 (mult seen (fst e) (fst e))) as [K|K].
      * cbn [List.length]. split; [lia|]. intros H. exfalso. specialize (H (fst e)). rewrite mult_cons, Hs, String.eqb_refl in H. replace (mult seen (fst e) (fst e) =? 0) with false in H by lia. lia.
      * assert (Hlf : loops (e :: firsts (e :: seen) es) = e :: loops (firsts (e :: seen) es)) by (unfold loops; cbn [filter]; now rewrite EL). rewrite Hlf. cbn [List.length].
        assert (Hv : forall v, mult (e :: seen) v v = (if String.eqb v (fst e) then 1 else 0) + mult seen v v) by (intros v; now rewrite mult_cons, Hs).
        assert (Hw : forall v, mult (e :: es) v v = (if String.eqb v (fst e) then 1 else 0) + mult es v v) by (intros v; now rewrite mult_cons, Hs).
        split.
        { intros H v. injection H as H. pose proof (proj1 IH H v) as H'. rewrite Hv in H'. rewrite Hw. destruct (String.eqb_spec v (fst e)) as [Q|N]; [|exact H']. subst v. replace (mult seen (fst e) (fst e)) with 0 in * by lia. cbn [Nat.eqb Nat.add] in *. lia. }
        { intros H. f_equal. apply IH. intros v. specialize (H v). rewrite Hw in H. rewrite Hv. destruct (String.eqb_spec v (fst e)) as [Q|N]; [|exact H]. subst v. replace (mult seen (fst e) (fst e)) with 0 in * by lia. cbn [Nat.eqb Nat.add] in *. lia. }
    + assert (Hs : forall v, same_ends (v, v) e = false).
      { intros v. destruct (same_ends (v, v) e) eqn:K; [|reflexivity]. apply same_ends_loop in K. destruct K as [K _]. congruence. }
      assert (H1 : loops (if existsb (same_ends e) seen then firsts (e :: seen) es else e :: firsts (e :: seen) es) = loops (firsts (e :: seen) es)) by (destruct (existsb _ seen); unfold loops; cbn [filter]; now rewrite ?EL).
      assert (H2 : loops (e :: es) = loops es) by (unfold loops; cbn [filter]; now rewrite EL). rewrite H1, H2, IH. split; intros H v; specialize (H v); rewrite ?mult_cons, ?Hs in *; exact H.
Qed.
Lemma classes_loops_iff es : List.length (loops (classes es)) = List.length (loops es) <-> forall v, mult es v v <= 1.
Proof. unfold classes. rewrite firsts_loops_iff. unfold mult at 2. cbn [filter List.length Nat.eqb]. reflexivity. Qed.
