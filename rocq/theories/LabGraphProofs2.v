(** [WeightedSimpleGraph::from] and [laplacian]. *)
From Coq Require Import List Arith ZArith Bool Lia ZifyBool ZifyNat String Ring_theory Ring.
From Verif Require Import UtilModel PidModel PermModel MatModel MatSpec MatProofs MatProofs2 SnfModel GraphModel LabGraphModel LabGraphSpec LabGraphProofs.
Import ListNotations.
Open Scope nat_scope.

Lemma NoDup_app_disj {A} (u v : list A) : NoDup u -> NoDup v -> (forall z, In z u -> ~ In z v) -> NoDup (u ++ v).
Proof.
  induction 1 as [|z u Hz Hu IHu]; intros Hv HD; cbn [app]; [exact Hv|]. constructor; [rewrite in_app_iff; intros [K|K]; [contradiction|]; exact (HD z (or_introl eq_refl) K)|apply IHu; [exact Hv|]; intros w Hw; apply HD; now right].
Qed.
Lemma list_prod_NoDup {A B} (l : list A) (m : list B) : NoDup l -> NoDup m -> NoDup (list_prod l m).
Proof.
  intros Hl Hm. induction Hl as [|x l Hx Hl IH]; cbn [list_prod]; [constructor|]. apply NoDup_app_disj; [|exact IH|].
  - clear - Hm. induction Hm as [|y l Hy Hl IH]; cbn [map]; constructor; [|exact IH]. rewrite in_map_iff. intros (z & [= ->] & K). contradiction.
  - intros [p q] K1 K2. apply in_map_iff in K1. destruct K1 as (z & [= <- <-] & _). apply in_prod_iff in K2. tauto.
Qed.

Section W.
  Context {T : Type} {O : Ops T}.
  Definition wlabels (input : list (string * string * T)) : list string := registered (map fst input).
  Definition triple_ok (L : list string) (e : string * string * T) (t : nat * nat * T) : Prop :=
    let '(i, j, w) := t in i < List.length L /\ j < List.length L /\ nth i L EmptyString = fst (fst e) /\ nth j L EmptyString = snd (fst e) /\ w = snd e.
  Lemma triple_ok_app L L' e t : triple_ok L e t -> triple_ok (L ++ L') e t.
  Proof. destruct t as [[i j] w]. cbn. intros (A & B & C & D & E). rewrite app_length, !app_nth1 by assumption. repeat split; (lia || assumption). Qed.
  Lemma index_of_spec L v : let r := index_of L (position v L) v in
    fst r = register L v /\ snd r < List.length (fst r) /\ nth (snd r) (fst r) EmptyString = v.
  Proof.
    cbn zeta. destruct (position v L) as [i|] eqn:E; cbn [index_of fst snd].
    - apply position_some in E. destruct E as [E1 E2]. split; [|auto]. unfold register. replace (has v L) with true; [reflexivity|]. symmetry. apply has_iff. rewrite <- E2. now apply nth_In.
    - apply position_none in E. unfold register. destruct (has v L) eqn:K; [apply has_iff in K; contradiction|]. split; [reflexivity|]. rewrite app_length. cbn [List.length]. split; [lia|]. rewrite app_nth2, Nat.sub_diag by lia. reflexivity.
  Qed.
  Lemma register_pre L v : exists M, register L v = L ++ M.
  Proof. unfold register. destruct (has v L); [exists []; now rewrite app_nil_r|now exists [v]]. Qed.
  Lemma position_register L v w : v <> w -> position w (register L v) = position w L.
  Proof.
    intros N. unfold register. destruct (has v L); [reflexivity|]. induction L as [|x L IH]; cbn [app position].
    - destruct (String.eqb_spec v w); [contradiction|reflexivity].
    - rewrite IH. reflexivity.
  Qed.
  Lemma register_weight_spec L acc e : if is_loop (fst e) then register_weight (L, acc) e = None
    else exists t, register_weight (L, acc) e = Some (register (register L (fst (fst e))) (snd (fst e)), acc ++ [t]) /\ triple_ok (register (register L (fst (fst e))) (snd (fst e))) e t.
  Proof.
    destruct e as [[v1 v2] w]. cbn [fst snd]. unfold is_loop, register_weight. cbn [fst snd]. destruct (String.eqb_spec v1 v2) as [->|N]; [reflexivity|].
    pose proof (index_of_spec L v1) as H1. cbn zeta in H1. destruct (index_of L (position v1 L) v1) as [l1 i1]. cbn [fst snd] in H1. destruct H1 as (-> & A1 & A2).
    pose proof (index_of_spec (register L v1) v2) as H2. cbn zeta in H2. rewrite position_register in H2 by exact N. destruct (index_of (register L v1) (position v2 L) v2) as [l2 i2]. cbn [fst snd] in H2. destruct H2 as (-> & B1 & B2).
    exists (i1, i2, w). split; [reflexivity|]. cbn. destruct (register_pre (register L v1) v2) as (M & EM). rewrite EM in *. rewrite app_length in *. split; [lia|]. split; [lia|]. split; [now rewrite app_nth1|]. split; [exact B2|reflexivity].
  Qed.
  Lemma register_weights input : forall L acc, if existsb (fun e => is_loop (fst e)) input then foldM register_weight input (L, acc) = None
    else exists ts, foldM register_weight input (L, acc) = Some (fold_left (fun l (e : string * string) => register (register l (fst e)) (snd e)) (map fst input) L, acc ++ ts) /\
      Forall2 (triple_ok (fold_left (fun l (e : string * string) => register (register l (fst e)) (snd e)) (map fst input) L)) input ts.
  Proof.
    induction input as [|e input IH]; intros L acc.
    - exists []. cbn [foldM map fold_left]. rewrite app_nil_r. split; [reflexivity|constructor].
    - cbn [existsb foldM map fold_left]. pose proof (register_weight_spec L acc e) as HE. destruct (is_loop (fst e)); cbn [orb]; [now rewrite HE|]. destruct HE as (t & -> & Ht). cbn [obind].
      specialize (IH (register (register L (fst (fst e))) (snd (fst e))) (acc ++ [t])). destruct (existsb _ input); [exact IH|]. destruct IH as (ts & -> & HT). exists (t :: ts). split; [f_equal; f_equal; now rewrite <- app_assoc|]. constructor; [|exact HT].
      assert (P : forall (l : list (string * string)) K, exists M, fold_left (fun l (e : string * string) => register (register l (fst e)) (snd e)) l K = K ++ M).
      { induction l as [|f l IHl]; intros K; cbn [fold_left]; [exists []; now rewrite app_nil_r|]. destruct (IHl (register (register K (fst f)) (snd f))) as (M & ->). destruct (register_pre (register K (fst f)) (snd f)) as (M1 & ->), (register_pre K (fst f)) as (M2 & ->). exists (M2 ++ M1 ++ M). now rewrite <- !app_assoc. }
      destruct (P (map fst input) (register (register L (fst (fst e))) (snd (fst e)))) as (M & ->). now apply triple_ok_app.
  Qed.
  Lemma set_weights L input ts : NoDup L -> Forall2 (triple_ok L) input ts -> (forall e, In e input -> is_loop (fst e) = false) -> forall f,
    foldM set_weight ts (mk (List.length L) (List.length L) f) =
    Some (mk (List.length L) (List.length L) (fun i j => fold_left (fun acc e => if same_ends (nth i L EmptyString, nth j L EmptyString) (fst e) then snd e else acc) input (f i j))).
  Proof.
    intros ND H. induction H as [|e t input ts Ht _ IH]; intros HN f; [reflexivity|]. cbn [foldM fold_left]. destruct t as [[i j] w]. cbn in Ht. destruct Ht as (Hi & Hj & Ei & Ej & ->). unfold set_weight at 1. rewrite mset_mk by assumption. cbn [obind]. rewrite mset_mk by assumption. cbn [obind].
    rewrite IH by (intros; apply HN; now right). f_equal. apply mk_ext. intros x y Hx Hy. f_equal.
    replace (same_ends (nth x L EmptyString, nth y L EmptyString) (fst e)) with (((x =? i) && (y =? j)) || ((x =? j) && (y =? i))); [destruct ((x =? j) && (y =? i)), ((x =? i) && (y =? j)); reflexivity|].
    unfold same_ends. cbn [fst snd]. rewrite <- Ei, <- Ej.
    assert (EL : forall x y, x < List.length L -> y < List.length L -> (x =? y) = String.eqb (nth x L EmptyString) (nth y L EmptyString)).
    { intros a b Ha Hb. destruct (String.eqb_spec (nth a L EmptyString) (nth b L EmptyString)) as [E|E]; [apply Nat.eqb_eq; now apply (label_inj L)|]. apply Nat.eqb_neq. intros ->. congruence. }
    now rewrite !EL.
  Qed.
  Definition wfun (input : list (string * string * T)) (i j : nat) : T := weight t0 input (nth i (wlabels input) EmptyString) (nth j (wlabels input) EmptyString).
  Lemma wgraph_from_spec input : wgraph_from input =
    if existsb (fun e => is_loop (fst e)) input then None
    else match input with [] => None | _ => Some (WG (mk (List.length (wlabels input)) (List.length (wlabels input)) (wfun input)) (wlabels input)) end.
  Proof.
    unfold wgraph_from. pose proof (register_weights input [] []) as H. destruct (existsb _ input) eqn:EX; [now rewrite H|]. destruct H as (ts & -> & HT). cbn [obind fst snd app]. fold (registered (map fst input)). fold (wlabels input).
    destruct input as [|e input]; [reflexivity|]. set (inp := e :: input) in *.
    assert (Hn : 0 < List.length (wlabels inp)).
    { destruct (wlabels inp) as [|x l] eqn:E; [|cbn [List.length]; lia]. assert (K : In (fst (fst e)) (wlabels inp)) by (apply registered_in; exists (fst e); split; [now left|now left]). rewrite E in K. destruct K. }
    rewrite mzero_mk by assumption. cbn [obind]. fold (registered (map fst inp)) in HT. fold (wlabels inp) in HT. rewrite (set_weights (wlabels inp) inp ts); [reflexivity|apply registered_NoDup|exact HT|].
    intros f Hf. destruct (is_loop (fst f)) eqn:K; [|reflexivity]. assert (Q : existsb (fun e => is_loop (fst e)) inp = true) by (apply existsb_exists; exists f; auto). congruence.
  Qed.
  Lemma weight_flip input a b (z : T) : weight z input b a = weight z input a b.
  Proof.
    unfold weight. revert z. induction input as [|e input IH]; intros z; cbn [fold_left]; [reflexivity|]. rewrite same_ends_flip. apply IH.
  Qed.
  Lemma weight_diag input a (z : T) : (forall e, In e input -> is_loop (fst e) = false) -> weight z input a a = z.
  Proof.
    unfold weight. revert z. induction input as [|e input IH]; intros z H; cbn [fold_left]; [reflexivity|]. replace (same_ends (a, a) (fst e)) with false; [apply IH; intros; apply H; now right|].
    destruct (same_ends (a, a) (fst e)) eqn:K; [|reflexivity]. apply same_ends_loop in K. rewrite H in K by now left. destruct K. congruence.
  Qed.

  (** Laplacian *)
  Lemma lap_diag_loop n (A : nat -> nat -> T) : foldM lap_diag (seq 0 n) (mk n n A) = Some (mk n n (fun i j => if i =? j then sum n (A i) else A i j)).
  Proof.
    assert (K : forall m, m <= n -> foldM lap_diag (seq 0 m) (mk n n A) = Some (mk n n (fun i j => if (i =? j) && (i <? m) then sum n (A i) else A i j))).
    { induction m as [|m IH]; intros Hm; [cbn [seq foldM]; f_equal; apply mk_ext; intros; now rewrite andb_false_r|]. rewrite seq_S, foldM_app, IH by lia. cbn [obind foldM Nat.add].
      unfold lap_diag. cbn [nr mk]. fold (mk n n (fun i j => if (i =? j) && (i <? m) then sum n (A i) else A i j)).
      rewrite (omapM_some _ (A m)) by (intros j Hj; apply in_seq in Hj; rewrite mget_in by lia; f_equal; now replace (m <? m) with false by lia; rewrite andb_false_r).
      cbn [obind]. rewrite fold_sum, mset_mk by lia. cbn [obind]. f_equal. apply mk_ext. intros i j Hi Hj. destruct (Nat.eqb_spec i m) as [->|N].
      - destruct (Nat.eqb_spec j m) as [->|N2]; [rewrite Nat.eqb_refl; now replace (m <? S m) with true by lia|]. cbn [andb]. now replace (m =? j) with false by lia.
      - cbn [andb]. replace (i <? S m) with (i <? m) by lia. reflexivity. }
    rewrite K by lia. f_equal. apply mk_ext. intros i j Hi Hj. replace (i <? n) with true by lia. now rewrite andb_true_r.
  Qed.
  Lemma lap_neg_loop n l (A : nat -> nat -> T) : NoDup l -> (forall p, In p l -> fst p < n /\ snd p < n) ->
    foldM lap_neg l (mk n n A) = Some (mk n n (fun i j => if negb (i =? j) && existsb (fun p => (fst p =? i) && (snd p =? j)) l then tmul (A i j) (topp t1) else A i j)).
  Proof.
    revert A. induction l as [|[a b] l IH]; intros A ND HB; cbn [foldM].
    - f_equal. apply mk_ext. intros i j _ _. cbn [existsb]. now rewrite andb_false_r.
    - apply NoDup_cons_iff in ND. destruct ND as [NI ND]. destruct (HB (a, b)) as [Ha Hb]; [now left|]. cbn [fst snd] in Ha, Hb. unfold lap_neg at 1. cbn [fst snd]. assert (HB' : forall p, In p l -> fst p < n /\ snd p < n) by (intros; apply HB; now right).
      assert (NE : existsb (fun p => (fst p =? a) && (snd p =? b)) l = false).
      { destruct (existsb _ l) eqn:E; [|reflexivity]. apply existsb_exists in E. destruct E as ([c d] & H1 & H2). cbn [fst snd] in H2. assert (c = a /\ d = b) as [-> ->] by lia. contradiction. }
      destruct (Nat.eqb_spec a b) as [->|N].
      + cbn [obind]. rewrite (IH A ND HB'). f_equal. apply mk_ext. intros i j Hi Hj. cbn [existsb fst snd]. destruct (Nat.eqb_spec i j) as [->|K]; [reflexivity|]. replace ((b =? i) && (b =? j)) with false by lia. reflexivity.
      + rewrite mget_in by assumption. cbn [obind]. rewrite mset_mk by assumption. cbn [obind]. rewrite (IH _ ND HB'). f_equal. apply mk_ext. intros i j Hi Hj. cbn [existsb fst snd]. destruct (Nat.eqb_spec i a) as [->|N1].
        * destruct (Nat.eqb_spec j b) as [->|N2]; [rewrite NE, !Nat.eqb_refl; replace (a =? b) with false by lia; reflexivity|]. replace (b =? j) with false by lia. now rewrite !andb_false_r.
        * cbn [andb]. replace (a =? i) with false by lia. reflexivity.
  Qed.
  Lemma laplacian_spec n (A : nat -> nat -> T) L : laplacian (WG (mk n n A) L) = Some (mk n n (fun i j => if i =? j then sum n (A i) else tmul (A i j) (topp t1))).
  Proof.
    unfold laplacian. cbn [wg_data nr mk]. fold (mk n n A). rewrite lap_diag_loop. cbn [obind]. rewrite lap_neg_loop.
    - f_equal. apply mk_ext. intros i j Hi Hj. destruct (Nat.eqb_spec i j) as [->|N]; cbn [negb andb]; [reflexivity|]. replace (existsb _ _) with true; [reflexivity|]. symmetry. apply existsb_exists. exists (i, j). cbn [fst snd]. split; [apply in_prod; apply in_seq; lia|]. now rewrite !Nat.eqb_refl.
    - apply list_prod_NoDup; apply seq_NoDup.
    - intros [p q] H. apply in_prod_iff in H. destruct H as [H1 H2]. apply in_seq in H1, H2. cbn [fst snd]. lia.
  Qed.
  Hypothesis RL : ring_theory t0 t1 tadd tmul tsub topp (@eq T).
  Add Ring Tr : RL.
  Lemma neg_one (x : T) : tmul x (topp t1) = topp x.
  Proof. ring. Qed.
  Lemma laplacian_rows n (A : nat -> nat -> T) i : i < n -> A i i = t0 -> sum n (fun j => if i =? j then sum n (A i) else tmul (A i j) (topp t1)) = t0.
  Proof.
    intros Hi H0. rewrite (sum_one RL n i) by exact Hi. rewrite Nat.eqb_refl. rewrite (sum_one RL n i (A i)) by exact Hi. rewrite H0.
    assert (E : sum n (fun k => if k =? i then t0 else if i =? k then tadd t0 (sum n (fun k0 => if k0 =? i then t0 else A i k0)) else tmul (A i k) (topp t1)) = tmul (sum n (fun k => if k =? i then t0 else A i k)) (topp t1)).
    { rewrite <- (sum_mul_r RL). apply (sum_ext n). intros k Hk. destruct (Nat.eqb_spec k i) as [->|N]; [ring|]. now replace (i =? k) with false by lia. }
    rewrite E. ring.
  Qed.
End W.
