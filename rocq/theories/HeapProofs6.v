(** Lemmas for C131, C132: every statement keeps the memory in agreement with the reference semantics. *)
From Coq Require Import List Arith NArith Bool Lia ZifyBool ZifyNat ZifyN.
From Verif Require Import PidModel MatModel ViewModel ViewSpec ViewProofs HeapModel HeapSpec HeapProofs HeapProofs2 HeapProofs3 HeapProofs4 HeapProofs5.
Import ListNotations.
Open Scope nat_scope.

Lemma Forall2_nth {A B} (P : A -> B -> Prop) l k : Forall2 P l k -> forall i,
  match nth_error l i, nth_error k i with Some x, Some y => P x y | None, None => True | _, _ => False end.
Proof. induction 1 as [|x y l k H _ IH]; intros [|i]; cbn; [exact I|exact I|exact H|exact (IH i)]. Qed.
Lemma Forall2_of_nth {A B} (P : A -> B -> Prop) : forall l k, (forall i,
  match nth_error l i, nth_error k i with Some x, Some y => P x y | None, None => True | _, _ => False end) -> Forall2 P l k.
Proof.
  induction l as [|x l IH]; intros [|y k] H; [constructor|exact (False_ind _ (H 0))|exact (False_ind _ (H 0))|].
  constructor; [exact (H 0)|]. apply IH. intros i. exact (H (S i)).
Qed.
Lemma nth_lset {A} (l : list A) i k x : nth_error (lset l i x) k = if (i =? k) && (i <? length l) then Some x else nth_error l k.
Proof.
  destruct (i =? k) eqn:E; cbn [andb].
  - replace k with i by lia. destruct (i <? length l) eqn:B; [apply nth_lset_same; lia|]. rewrite (proj2 (nth_error_None l i)), (proj2 (nth_error_None _ i)); [reflexivity|rewrite lset_length; lia|lia].
  - apply nth_lset_other. lia.
Qed.

Section H.
  Context {T : Type} {O : Ops T}.
  Variable nd : bool.
  Implicit Types (h : heap T) (A B M : smat T) (q : href).

  Definition vinv h (o : option owned) (M : option (smat T)) : Prop :=
    match o, M with
    | None, None => True
    | Some o, Some M => exists L, good L /\ o_shape o = shape L /\ lh L = sm_h M /\ lw L = sm_w M /\ blk h (o_block o) L (entries (sm_f M))
    | _, _ => False
    end.
  Record inv (m : mstate T) (s : sstate T) : Prop := Inv {
    inv_vars : Forall2 (vinv (m_heap m)) (m_vars m) (s_vars s);
    inv_apart : forall x y o o', nth_error (m_vars m) x = Some (Some o) -> nth_error (m_vars m) y = Some (Some o') -> o_block o = o_block o' -> x = y;
    inv_living : living (h_blocks (m_heap m)) = living (m_vars m);
    inv_lost : h_lost (m_heap m) = s_lost s }.

  Lemma inv_holds m s : inv m s -> holds m s.
  Proof.
    intros [V _ LV LO]. split; [|now split]. revert V. generalize (m_vars m) (s_vars s). intros l k. induction 1 as [|o M l k H _ IH]; constructor; [|exact IH].
    destruct o as [o|], M as [M|]; try exact H. destruct H as (L & G & E & Eh & Ew & HB). cbn. rewrite E, shape_size, Eh, Ew. split; [reflexivity|]. intros i j.
    pose proof (opnd_owned (m_heap m) (o_block o) L (sm_f M) G HB) as K. destruct o as [b sh]. cbn [o_block o_shape] in *. subst sh.
    rewrite (opnd_rd _ _ _ i j K). cbn [sm_h sm_w sm_f]. now rewrite Eh, Ew.
  Qed.
  Lemma inv_block_lt m s x o : inv m s -> nth_error (m_vars m) x = Some (Some o) -> o_block o < length (h_blocks (m_heap m)).
  Proof.
    intros I E. pose proof (Forall2_nth _ _ _ (inv_vars m s I) x) as K. rewrite E in K. destruct (nth_error (s_vars s) x) as [[M|]|]; try contradiction.
    destruct K as (L & _ & _ & _ & _ & HB). now apply (blk_lt _ _ L (entries (sm_f M))).
  Qed.
  Lemma var_ok m s x : inv m s -> match svar s x with
    | SOk M => exists o L, var m x = Ok o /\ nth_error (m_vars m) x = Some (Some o) /\ nth_error (s_vars s) x = Some (Some M) /\
        good L /\ o_shape o = shape L /\ lh L = sm_h M /\ lw L = sm_w M /\ blk (m_heap m) (o_block o) L (entries (sm_f M))
    | SReject => var m x = Reject
    | _ => False
    end.
  Proof.
    intros I. pose proof (Forall2_nth _ _ _ (inv_vars m s I) x) as K. unfold svar, var. destruct (nth_error (s_vars s) x) as [[M|]|], (nth_error (m_vars m) x) as [[o|]|]; try contradiction; try reflexivity.
    destruct K as (L & K). exists o, L. split; [reflexivity|]. split; [reflexivity|]. split; [reflexivity|exact K].
  Qed.
  Lemma resolve_ok m s x ops : inv m s -> match sview s x ops with
    | SOk (M, r) => exists q o L, resolve m x ops = Ok q /\ nth_error (m_vars m) x = Some (Some o) /\ nth_error (s_vars s) x = Some (Some M) /\ fst q = o_block o /\
        good L /\ o_shape o = shape L /\ lh L = sm_h M /\ lw L = sm_w M /\ placed (m_heap m) q L r M
    | SPanic => resolve m x ops = Panic
    | SReject => resolve m x ops = Reject
    | _ => False
    end.
  Proof.
    intros I. unfold sview, resolve. pose proof (var_ok m s x I) as K. destruct (svar s x) as [M| | | |]; try contradiction; [|rewrite K; reflexivity].
    destruct K as (o & L & E & E1 & E2 & G & Es & Eh & Ew & HB). rewrite E. cbn [rbind obnd]. rewrite Es.
    pose proof (sees_run L (owner_view (shape L)) (rv_full (lh L) (lw L)) ops (sees_full L G)) as K. rewrite Eh, Ew in K.
    destruct (run_vops (owner_view (shape L)) ops) as [v|], (rv_run (rv_full (sm_h M) (sm_w M)) ops) as [r|]; try contradiction; [|reflexivity].
    exists (o_block o, v), o, L. repeat (split; [assumption || reflexivity|]). exact K.
  Qed.
  Lemma shared_ok m s a : inv m s -> match sshared s a with
    | SOk A => exists q o, shared m a = Ok q /\ (let (x, _) := a in nth_error (m_vars m) x = Some (Some o)) /\ fst q = o_block o /\ opnd (m_heap m) q A
    | SPanic => shared m a = Panic
    | SReject => shared m a = Reject
    | _ => False
    end.
  Proof.
    intros I. destruct a as [x ops]. cbn [sshared shared]. pose proof (resolve_ok m s x ops I) as K. destruct (sview s x ops) as [[M r]| | | |]; cbn [obnd]; try exact K.
    destruct K as (q & o & L & E & E1 & E2 & E3 & G & Es & Eh & Ew & P). exists q, o. split; [exact E|]. split; [exact E1|]. split; [exact E3|]. now apply (placed_opnd _ _ L).
  Qed.

  (** The outcome of a statement agrees, with the invariant. *)
  Definition agrees (r : res (mstate T)) (o : outcome (sstate T)) : Prop :=
    match o, r with SOk s, Ok m => inv m s | SPanic, Panic | SUndef, Undef | SReject, Reject => True | SBig, _ => True | _, _ => False end.
  Lemma agrees_agree r o : agrees r o -> agree r o.
  Proof. destruct o, r; cbn; auto. apply inv_holds. Qed.

  Lemma vinv_same h h' o (M : option (smat T)) : (forall c, nth_error (h_blocks h) (o_block o) = Some (Some c) -> nth_error (h_blocks h') (o_block o) = Some (Some c)) -> vinv h (Some o) M -> vinv h' (Some o) M.
  Proof.
    intros H. destruct M as [M|]; [|easy]. cbn. intros (L & G & Es & Eh & Ew & c & Ec & R). exists L. repeat (split; [assumption|]). exists c. split; [now apply H|exact R].
  Qed.
  Lemma nth_snoc {X : Type} (l : list X) x i y : nth_error (l ++ [x]) i = Some y -> nth_error l i = Some y \/ (i = length l /\ y = x).
  Proof.
    intros E. destruct (i <? length l) eqn:B; [left; now rewrite nth_error_app1 in E by lia|]. right. rewrite nth_error_app2 in E by lia.
    destruct (i - length l) as [|k] eqn:Ek; cbn in E; [split; [lia|congruence]|destruct k; discriminate].
  Qed.
  Lemma new_var m s n m' f (r : res (heap T * owned)) : inv m s -> n * m' <> 0 -> small (n, m') -> created (m_heap m) n m' f r ->
    agrees (bind_new m r) (SOk (SState (s_vars s ++ [Some (SMat n m' f)]) (s_lost s))).
  Proof.
    intros I Hnm Hs (h' & -> & HB & X1 & X2 & X3). cbn. pose proof (fun x o => inv_block_lt m s x o I) as Hlt. destruct I as [V A LV LO].
    constructor; cbn [m_heap m_vars s_vars s_lost].
    - apply Forall2_app.
      + apply Forall2_of_nth. intros i. pose proof (Forall2_nth _ _ _ V i) as K. destruct (nth_error (m_vars m) i) as [[o|]|] eqn:Eo, (nth_error (s_vars s) i) as [M|]; try contradiction; try exact K.
        apply (vinv_same (m_heap m)); [|exact K]. intros c Ec. rewrite X2; [exact Ec|]. now apply (Hlt i o Eo).
      + constructor; [|constructor]. exists (Layout false n m'). split; [now apply good_new|]. repeat (split; [reflexivity|]). exact HB.
    - intros x y o o' Ex Ey Eo. apply nth_snoc in Ex, Ey. destruct Ex as [Ex|[-> [= ->]]], Ey as [Ey|[-> [= ->]]].
      + now apply (A x y o o'). + apply Hlt in Ex. cbn in Eo. lia. + apply Hlt in Ey. cbn in Eo. lia. + reflexivity.
    - rewrite living_app. cbn. rewrite <- LV. replace (living (h_blocks h')) with (living (h_blocks (m_heap m) ++ [Some (@nil (option T))])); [now rewrite living_app|].
      apply living_ext; [rewrite app_length; cbn; lia|]. intros i. unfold live. destruct (i <? length (h_blocks (m_heap m))) eqn:B.
      + rewrite nth_error_app1 by lia. now rewrite X2 by lia.
      + rewrite nth_error_app2 by lia. destruct (i - length (h_blocks (m_heap m))) as [|k] eqn:Ek; cbn.
        * replace i with (length (h_blocks (m_heap m))) by lia. destruct HB as (c & Ec & _). now rewrite Ec.
        * rewrite (proj2 (nth_error_None (h_blocks h') i)) by lia. now destruct k.
    - congruence.
  Qed.
  (** A change in place. *)
  Lemma change_var m s x o L M M' h' : inv m s -> nth_error (m_vars m) x = Some (Some o) -> nth_error (s_vars s) x = Some (Some M) -> good L -> o_shape o = shape L -> lh L = sm_h M -> lw L = sm_w M ->
    sm_h M' = sm_h M -> sm_w M' = sm_w M -> blk h' (o_block o) L (entries (sm_f M')) ->
    (forall b, b < length (h_blocks (m_heap m)) -> b <> o_block o -> nth_error (h_blocks h') b = nth_error (h_blocks (m_heap m)) b) ->
    living (h_blocks h') = living (h_blocks (m_heap m)) -> h_lost h' = h_lost (m_heap m) ->
    inv (MState h' (m_vars m)) (SState (lset (s_vars s) x (Some M')) (s_lost s)).
  Proof.
    intros I Ex EM G Es Eh Ew Eh' Ew' HB Hb EL EO. pose proof (fun x o => inv_block_lt m s x o I) as Hlt. destruct I as [V A LV LO].
    constructor; cbn [m_heap m_vars s_vars s_lost].
    - apply Forall2_of_nth. intros i. pose proof (Forall2_nth _ _ _ V i) as K. rewrite nth_lset. destruct (x =? i) eqn:E; cbn [andb].
      + replace i with x in * by lia. rewrite Ex. replace (x <? length (s_vars s)) with true by (assert (x < length (s_vars s)) by (apply nth_error_Some; congruence); lia).
        exists L. repeat (split; [congruence|]). exact HB.
      + destruct (nth_error (m_vars m) i) as [[o'|]|] eqn:Eo, (nth_error (s_vars s) i) as [N|]; try contradiction; try exact K.
        apply (vinv_same (m_heap m)); [|exact K]. intros c Ec. rewrite Hb; [exact Ec|now apply (Hlt i o')|]. intros Q. pose proof (A i x o' o Eo Ex Q). lia.
    - exact A.
    - congruence.
    - congruence.
  Qed.
  Lemma frame_living b h h' c : nth_error (h_blocks h) b = Some (Some c) -> frame b h h' -> living (h_blocks h') = living (h_blocks h).
  Proof.
    intros Ec (F1 & F2 & _ & F4). apply living_ext; [exact F1|]. intros i. unfold live. destruct (i =? b) eqn:E.
    - replace i with b by lia. destruct (F4 c Ec) as (c' & ->). now rewrite Ec.
    - now rewrite F2 by lia.
  Qed.
  Lemma settled_living b h h' c c' : nth_error (h_blocks h) b = Some (Some c) -> nth_error (h_blocks h') b = Some (Some c') -> settled b h h' -> living (h_blocks h') = living (h_blocks h).
  Proof.
    intros Ec Ec' (F1 & F2 & F3 & _). replace (living (h_blocks h)) with (living (h_blocks h ++ [None])) by (rewrite living_app; cbn; lia).
    assert (Hb : b < length (h_blocks h)) by (apply nth_error_Some; congruence).
    apply living_ext; [rewrite app_length; cbn; lia|]. intros i. unfold live. destruct (i <? length (h_blocks h)) eqn:B.
    - rewrite nth_error_app1 by lia. destruct (i =? b) eqn:E; [replace i with b by lia; now rewrite Ec, Ec'|]. now rewrite F2 by lia.
    - rewrite nth_error_app2 by lia. destruct (i - length (h_blocks h)) as [|k] eqn:Ek; cbn.
      + replace i with (length (h_blocks h)) by lia. now rewrite F3.
      + rewrite (proj2 (nth_error_None (h_blocks h') i)) by lia. now destruct k.
  Qed.
  Lemma changed_var m s x o L M r g R b : inv m s -> nth_error (m_vars m) x = Some (Some o) -> nth_error (s_vars s) x = Some (Some M) -> good L -> o_shape o = shape L -> lh L = sm_h M -> lw L = sm_w M ->
    blk (m_heap m) b L (entries (sm_f M)) -> b = o_block o -> changed (m_heap m) b L (paste M r g) R ->
    agrees (in_place m R) (SOk (SState (lset (s_vars s) x (Some (paste M r g))) (s_lost s))).
  Proof.
    intros I Ex EM G Es Eh Ew HB -> (h' & -> & B' & Fr). cbn. apply (change_var m s x o L M); auto.
    - intros b _ NE. now apply Fr.
    - destruct HB as (c & Ec & _). now apply (frame_living (o_block o) _ _ c).
    - apply Fr.
  Qed.
  Lemma settled_var m s x o L M r g h' b : inv m s -> nth_error (m_vars m) x = Some (Some o) -> nth_error (s_vars s) x = Some (Some M) -> good L -> o_shape o = shape L -> lh L = sm_h M -> lw L = sm_w M ->
    blk (m_heap m) b L (entries (sm_f M)) -> b = o_block o -> settled b (m_heap m) h' -> blk h' b L (entries (sm_f (paste M r g))) ->
    inv (MState h' (m_vars m)) (SState (lset (s_vars s) x (Some (paste M r g))) (s_lost s)).
  Proof.
    intros I Ex EM G Es Eh Ew HB -> Se B'. apply (change_var m s x o L M); auto.
    - intros b Hb NE. now apply Se.
    - destruct HB as (c & Ec & _). destruct B' as (c' & Ec' & _). now apply (settled_living (o_block o) _ _ c c').
    - apply Se.
  Qed.

  Lemma sized_ok n m : match sized n m with
    | SUndef => n * m = 0 | SOk _ => n * m <> 0 /\ small (n, m) | SBig => True | _ => False end.
  Proof.
    unfold sized. destruct (n * m =? 0) eqn:E; [lia|]. destruct (_ && _) eqn:C; [|exact I]. split; [lia|]. apply andb_true_iff in C. destruct C as [C1 C2].
    apply N.ltb_lt in C1, C2. now split.
  Qed.
  Lemma made_ok m s asg n m' f r : inv m s -> made nd asg (m_heap m) n m' f r -> agrees (bind_new m r) (make nd s asg n m' f).
  Proof.
    intros I H. unfold make. pose proof (sized_ok n m') as K. unfold made in H. destruct (sized n m') as [u| | | |]; try contradiction; cbn [obnd].
    - destruct K as [K1 K2]. replace (n * m' =? 0) with false in H by lia. specialize (H K2). destruct (asg && nd); [rewrite H; exact Logic.I|]. now apply new_var.
    - rewrite K in H. cbn in H. rewrite H. exact Logic.I.
    - exact Logic.I.
  Qed.
End H.
