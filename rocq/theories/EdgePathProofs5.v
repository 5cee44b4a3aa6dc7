(** Evaluation of an edge path on tokens. *)
From Coq Require Import List Arith Bool Lia ZifyBool ZifyNat Permutation.
From Verif Require Import PidModel EdgePathModel EdgePathSpec EdgePathProofs EdgePathProofs2 EdgePathProofs3 EdgePathProofs4.
From Verif Require Import PermModel PermSpec.
Import ListNotations.
Open Scope nat_scope.

(** A move by positions. *)
Definition mv (c : list nat) (e : ed) (c' : list nat) : Prop :=
  length c' = length c /\ ~ In (snd e) c /\ exists i, i < length c /\ nth i c 0 = fst e /\ nth i c' 0 = snd e /\
  forall j, j < length c -> j <> i -> nth j c' 0 = nth j c 0.
Lemma moves1_mv : forall c e c', moves1 c e c' <-> mv c e c'.
Proof.
  intros c e c'. split.
  - intros H. destruct H as [l r a b N]. split; [rewrite !app_length; reflexivity|]. split; [exact N|]. exists (length l).
    split; [rewrite app_length; cbn; lia|]. cbn [fst snd]. split; [apply nth_mid|]. split; [apply nth_mid|].
    intros j Hj Hne. destruct (lt_dec j (length l)) as [Hl|Hl].
    + now rewrite !app_nth1 by exact Hl.
    + rewrite !app_nth2 by lia. destruct (j - length l) as [|k] eqn:E; [lia|]. reflexivity.
  - intros (L & N & i & Hi & H1 & H2 & H3). destruct e as [a b]. cbn [fst snd] in *.
    destruct (split_nth c i 0 Hi) as (l & r & E & Ll). rewrite H1 in E.
    assert (E' : c' = l ++ b :: r).
    { apply (nth_ext _ _ 0 0).
      - rewrite L, E, !app_length. reflexivity.
      - intros j Hj. destruct (Nat.eq_dec j i) as [->|Hne].
        + rewrite H2. rewrite <- Ll. now rewrite nth_mid.
        + rewrite H3 by lia. rewrite E. destruct (lt_dec j (length l)) as [K|K].
          * now rewrite !app_nth1 by exact K.
          * rewrite !app_nth2 by lia. destruct (j - length l) as [|k] eqn:Ek; [lia|]. reflexivity. }
    rewrite E, E'. constructor. now rewrite <- E.
Qed.
Lemma moves1_NoDup : forall c e c', moves1 c e c' -> NoDup c -> NoDup c'.
Proof.
  intros c e c' [l r a b N] D. pose proof (NoDup_remove_1 _ _ _ D) as D1. pose proof (NoDup_remove_2 _ _ _ D) as D2.
  apply (Permutation_NoDup (l := b :: l ++ r)); [apply Permutation_middle|]. constructor; [|exact D1].
  intros K. apply N. apply in_app_or in K. apply in_or_app. cbn. tauto.
Qed.
Lemma moves_NoDup : forall c w c', moves c w c' -> NoDup c -> NoDup c'.
Proof. induction 1; auto. intros. apply IHmoves. eapply moves1_NoDup; eassumption. Qed.
Lemma moves_length : forall c w c', moves c w c' -> length c' = length c.
Proof. induction 1; auto. apply moves1_mv in H. destruct H as [H _]. lia. Qed.
Lemma mv_det : forall c e a b, NoDup c -> mv c e a -> mv c e b -> a = b.
Proof.
  intros c e a b D (La & _ & i & Hi & A1 & A2 & A3) (Lb & _ & j & Hj & B1 & B2 & B3).
  assert (i = j) as <- by (apply (NoDup_nth c 0); auto; congruence).
  apply (nth_ext _ _ 0 0); [lia|]. intros k Hk. destruct (Nat.eq_dec k i) as [->|]; [congruence|]. rewrite A3, B3 by lia. reflexivity.
Qed.
Lemma mv_back : forall c e c', NoDup c -> fst e <> snd e -> mv c e c' -> mv c' (reverse e) c.
Proof.
  intros c e c' D Ne (L & N & i & Hi & A1 & A2 & A3). unfold mv, reverse. cbn [fst snd]. split; [auto|]. split.
  - intros K. apply In_nth with (d := 0) in K. destruct K as (j & Hj & E). destruct (Nat.eq_dec j i) as [->|Hne]; [congruence|].
    rewrite A3 in E by lia. apply Hne. apply (NoDup_nth c 0); auto; [lia|congruence].
  - exists i. split; [lia|]. split; [exact A2|]. split; [exact A1|]. intros j Hj Hne. symmetry. apply A3; lia.
Qed.
Lemma mv_ne : forall c e c', mv c e c' -> fst e <> snd e.
Proof. intros c e c' (L & N & i & Hi & A1 & A2 & A3) E. apply N. rewrite <- E, <- A1. now apply nth_In. Qed.
Lemma mv_in : forall c e c', mv c e c' -> forall y, In y c' -> In y c \/ y = snd e.
Proof.
  intros c e c' (L & N & i & Hi & A1 & A2 & A3) y Hy. apply In_nth with (d := 0) in Hy. destruct Hy as (j & Hj & <-).
  destruct (Nat.eq_dec j i) as [->|]; [now right|]. left. rewrite A3 by lia. apply nth_In. lia.
Qed.
Fixpoint upd (l : list nat) (i v : nat) : list nat :=
  match l, i with [], _ => [] | _ :: r, 0 => v :: r | x :: r, S j => x :: upd r j v end.
Lemma upd_length : forall l i v, length (upd l i v) = length l.
Proof. induction l; intros [|i] v; cbn [upd length]; auto. Qed.
Lemma upd_same : forall l i v, i < length l -> nth i (upd l i v) 0 = v.
Proof. induction l; intros [|i] v H; cbn [upd length nth] in *; try lia. apply IHl. lia. Qed.
Lemma upd_other : forall l i v j, j <> i -> nth j (upd l i v) 0 = nth j l 0.
Proof. induction l; intros [|i] v [|j] H; cbn [upd nth]; try reflexivity; try lia. apply IHl. lia. Qed.
Lemma set_at_upd : forall l i v, i < length l -> set_at l i v = Some (upd l i v).
Proof. induction l; intros [|i] v H; cbn [set_at upd length] in *; try lia; [reflexivity|]. rewrite IHl by lia. reflexivity. Qed.
Lemma mv_upd : forall c e i, i < length c -> nth i c 0 = fst e -> ~ In (snd e) c -> mv c e (upd c i (snd e)).
Proof.
  intros c e i H E N. split; [apply upd_length|]. split; [exact N|]. exists i. split; [exact H|]. split; [exact E|].
  split; [now apply upd_same|]. intros. now apply upd_other.
Qed.
Lemma mv_swap : forall c e f c1 c2, NoDup c -> disjoint e f -> mv c e c1 -> mv c1 f c2 -> exists d, mv c f d /\ mv d e c2.
Proof.
  intros c e f c1 c2 D Dj (L1 & N1 & i & Hi & A1 & A2 & A3) (L2 & N2 & j & Hj & B1 & B2 & B3).
  apply depb_false in Dj. destruct e as [a b], f as [x y]. unfold depb in Dj. cbn [fst snd] in *.
  assert (j <> i) by (intros ->; lia).
  assert (Cj : nth j c 0 = x) by (rewrite <- B1; symmetry; apply A3; lia).
  assert (Ny : ~ In y c).
  { intros K. apply In_nth with (d := 0) in K. destruct K as (k & Hk & Ek). destruct (Nat.eq_dec k i) as [->|Hne]; [lia|].
    apply N2. rewrite <- Ek, <- A3 by assumption. apply nth_In. lia. }
  exists (upd c j y). assert (M : mv c (x, y) (upd c j y)) by (apply mv_upd; cbn [fst snd]; auto; lia). split; [exact M|].
  split; [rewrite upd_length; lia|]. split.
  - intros K. destruct (mv_in _ _ _ M _ K) as [K'|K']; cbn [fst snd] in *; [contradiction|lia].
  - exists i. rewrite upd_length. split; [lia|]. cbn [fst snd]. split; [rewrite upd_other by lia; exact A1|]. split.
    + rewrite B3 by lia. exact A2.
    + intros k Hk Hne. destruct (Nat.eq_dec k j) as [->|Hkj].
      * rewrite upd_same by lia. exact B2.
      * rewrite upd_other by lia. rewrite B3 by lia. apply A3; lia.
Qed.
Lemma moves_app : forall u v c c'', moves c (u ++ v) c'' <-> exists c', moves c u c' /\ moves c' v c''.
Proof.
  induction u as [|x u IH]; intros v c c''; cbn [app].
  - split; [intros H; exists c; split; [constructor|exact H]|]. intros (c' & H & K). inversion H; subst. exact K.
  - split.
    + intros H. inversion H as [|? d ? ? ? M1 M2]; subst. apply IH in M2. destruct M2 as (c' & A & B). exists c'. split; [econstructor; eassumption|exact B].
    + intros (c' & A & B). inversion A as [|? d ? ? ? M1 M2]; subst. econstructor; [exact M1|]. apply IH. eauto.
Qed.
Lemma moves_teq : forall u v, teq u v -> forall c c', NoDup c -> moves c u c' -> moves c v c'.
Proof.
  induction 1; intros c c' D M; auto.
  - inversion M; subst. econstructor; [eassumption|]. apply IHteq; [|assumption]. eapply moves1_NoDup; eassumption.
  - inversion M as [|? c1 ? ? ? M1 M2]; subst. inversion M2 as [|? c2 ? ? ? M3 M4]; subst. apply moves1_mv in M1, M3.
    apply depb_false in H. destruct (mv_swap _ _ _ _ _ D H M1 M3) as (d & K1 & K2).
    econstructor; [apply moves1_mv, K1|]. econstructor; [apply moves1_mv, K2|exact M4].
Qed.
Lemma moves_T : forall x w c c', NoDup c -> moves c (rev w ++ [x]) c' -> moves c (rev (T x w)) c'.
Proof.
  intros x w c c' D M. unfold T. destruct (del x w) as [w'|] eqn:E; [|exact M].
  apply del_spec, teq_rev in E. cbn [rev] in E. apply (teq_app_r _ _ [x]) in E. apply (moves_teq _ _ E) in M; [|exact D].
  rewrite <- app_assoc in M. cbn [app] in M. apply moves_app in M. destruct M as (d & M1 & M2).
  inversion M2 as [|? c1 ? ? ? M3 M4]; subst. inversion M4 as [|? c2 ? ? ? M5 M6]; subst. inversion M6; subst.
  apply moves1_mv in M3, M5. assert (Dd : NoDup d) by (eapply moves_NoDup; eassumption).
  pose proof (mv_back _ _ _ Dd (mv_ne _ _ _ M3) M3) as K. rewrite reverse_invol in K.
  assert (c' = d) as ->; [|exact M1]. eapply mv_det; [|exact M5|exact K]. eapply moves1_NoDup; [apply moves1_mv, M3|exact Dd].
Qed.
Lemma moves_act : forall p w c c', NoDup c -> moves c (rev w ++ p) c' -> moves c (rev (act p w)) c'.
Proof.
  induction p as [|x p IH]; intros w c c' D M; cbn [act fold_left]; [now rewrite app_nil_r in M|].
  apply IH; [exact D|]. replace (rev w ++ x :: p) with ((rev w ++ [x]) ++ p) in M by now rewrite <- app_assoc.
  apply moves_app in M. destruct M as (d & M1 & M2). apply moves_app. exists d. split; [now apply moves_T|exact M2].
Qed.
Lemma moves_reduce : forall p r c c', NoDup c -> reduce p = Some r -> moves c (concat p) c' -> moves c (concat r) c'.
Proof.
  intros p r c c' D H M. pose proof (reduce_spec p) as S. rewrite H in S. destruct S as (_ & u & -> & R & Hu).
  apply NF_iff in Hu. rewrite (NF_fixed u R) in Hu.
  destruct (foata_inv u R) as (_ & _ & W). pose proof (t_trans _ _ _ Hu (teq_sym _ _ W)) as K. apply teq_rev in K. unfold word in K. rewrite rev_involutive in K.
  apply (moves_teq _ _ K); [exact D|]. exact (moves_act (concat p) [] c c' D M).
Qed.
Lemma reduce_parallel : forall p r, reduce p = Some r -> Forall parallel r.
Proof.
  intros p r H. pose proof (reduce_spec p) as S. rewrite H in S. destruct S as (_ & u & -> & R & Hu). destruct (foata_inv u R) as ([A _] & _). exact A.
Qed.

(** The evaluation follows the moves. *)
Lemma find_seq_unique : forall f n i, i < n -> f i = true -> (forall j, j < n -> f j = true -> j = i) -> find f (seq 0 n) = Some i.
Proof.
  intros f n i Hi Hf Hu. pose proof (find_seq f n) as K. destruct (find f (seq 0 n)) as [j|].
  - destruct K as [K1 K2]. f_equal. now apply Hu.
  - rewrite K in Hf by exact Hi. discriminate.
Qed.
Lemma eval_moves_spec : forall s out next c', NoDup next -> length out = length next -> parallel s ->
  (forall e i, In e s -> i < length next -> (nth i out 0 = fst e <-> nth i next 0 = fst e)) ->
  moves next s c' -> eval_moves out next s = Some c'.
Proof.
  induction s as [|e s IH]; intros out next c' D L P H M; cbn [eval_moves].
  - inversion M; subst. reflexivity.
  - inversion M as [|? d ? ? ? M1 M2]; subst. assert (M1' := M1). apply moves1_mv in M1. destruct M1 as (Ld & N & i & Hi & A1 & A2 & A3).
    inversion P as [|? ? P1 P2]; subst.
    assert (F : find (fun k => nth k out 0 =? fst e) (seq 0 (length out)) = Some i).
    { apply find_seq_unique; [lia| |].
      - apply Nat.eqb_eq. apply (H e i); [now left|exact Hi|exact A1].
      - intros j Hj K. apply Nat.eqb_eq in K. apply (H e j) in K; [|now left|lia]. apply (NoDup_nth next 0); auto; [lia|congruence]. }
    rewrite F. cbn [obind]. rewrite set_at_upd by exact Hi. cbn [obind].
    assert (U : upd next i (snd e) = d).
    { apply (nth_ext _ _ 0 0); [rewrite upd_length; lia|]. intros k Hk. rewrite upd_length in Hk. destruct (Nat.eq_dec k i) as [->|].
      - now rewrite upd_same.
      - rewrite upd_other by assumption. symmetry. now apply A3. }
    rewrite U. apply IH; [eapply moves1_NoDup; eassumption|lia|exact P2| |exact M2].
    intros f k Hf Hk. rewrite Ld in Hk. rewrite Forall_forall in P1. specialize (P1 f Hf). apply depb_false in P1. destruct e as [a b], f as [x y].
    unfold depb in P1. cbn [fst snd] in *. destruct (Nat.eq_dec k i) as [->|Hne].
    + rewrite A2. split; intros K; [|lia]. exfalso. assert (nth i out 0 = a) by (apply (H (a, b)); [now left|exact Hi|exact A1]). lia.
    + rewrite A3 by assumption. apply (H (x, y)); [now right|exact Hk].
Qed.
Lemma eval_steps_spec : forall p c c', NoDup c -> Forall parallel p -> moves c (concat p) c' -> eval_steps c p = Some c'.
Proof.
  induction p as [|s p IH]; intros c c' D P M; cbn [concat eval_steps] in *.
  - inversion M; subst. reflexivity.
  - inversion P; subst. apply moves_app in M. destruct M as (d & M1 & M2).
    rewrite (eval_moves_spec s c c d); auto; [|tauto]. cbn [obind]. apply IH; auto. eapply moves_NoDup; eassumption.
Qed.
Lemma evaluate_spec : forall n p c, Forall parallel p -> moves (seq 0 n) (concat p) c -> evaluate n p = Some c.
Proof. intros. apply eval_steps_spec; auto. apply seq_NoDup. Qed.

(** Relabelling the tokens. *)
Lemma moves_relabel : forall c w c', moves c w c' -> NoDup c -> forall s, is_table s -> length s = length c ->
  moves (map (fun i => nth i c 0) s) w (map (fun i => nth i c' 0) s).
Proof.
  induction 1 as [c|c d c'' e w M1 M2 IH]; intros D s Ts Ls; [constructor|].
  econstructor; [|apply IH; auto; [eapply moves1_NoDup; eassumption|]].
  - apply moves1_mv. apply moves1_mv in M1. destruct M1 as (L & N & i & Hi & A1 & A2 & A3). destruct Ts as [Tn Tb].
    split; [now rewrite !map_length|]. split.
    + intros K. apply in_map_iff in K. destruct K as (k & K1 & K2). apply N. rewrite <- K1. apply nth_In. specialize (Tb k K2). lia.
    + assert (In i s) as Hs.
      { assert (incl (seq 0 (length s)) s); [|apply H; apply in_seq; lia].
        apply NoDup_length_incl; [exact Tn|rewrite seq_length; lia|]. intros k Hk. apply in_seq. specialize (Tb k Hk). lia. }
      apply In_nth with (d := 0) in Hs. destruct Hs as (j & Hj & Ej). exists j. rewrite map_length. split; [exact Hj|].
      assert (Hn : forall k (f : nat -> nat), k < length s -> nth k (map f s) 0 = f (nth k s 0)).
      { intros k f Hk. rewrite (nth_indep _ 0 (f 0)) by (now rewrite map_length). apply map_nth. }
      rewrite !Hn, Ej by exact Hj. split; [exact A1|]. split; [exact A2|]. intros k Hk Hne. rewrite !Hn by exact Hk. apply A3.
      * specialize (Tb (nth k s 0)). rewrite <- Ls. apply Tb. now apply nth_In.
      * intros E. apply Hne. apply (NoDup_nth s 0); auto. congruence.
  - apply moves1_mv in M1. destruct M1 as [L _]. lia.
Qed.
Lemma moves_backwards : forall c w c', moves c w c' -> NoDup c -> moves c' (backwards w) c.
Proof.
  induction 1 as [c|c d c'' e w M1 M2 IH]; intros D; [constructor|]. rewrite backwards_cons. apply moves_app. exists d. split.
  - apply IH. eapply moves1_NoDup; eassumption.
  - econstructor; [|constructor]. apply moves1_mv. apply moves1_mv in M1. apply mv_back; auto. eapply mv_ne; eassumption.
Qed.
Lemma omap_nth : forall (l : list nat) (f : nat -> option nat) (g : nat -> nat), (forall i, In i l -> f i = Some (g i)) ->
  omap f l = Some (map g l).
Proof.
  induction l as [|x l IH]; intros f g H; cbn [omap map]; [reflexivity|]. rewrite H by now left. cbn [obind].
  rewrite (IH f g) by (intros; apply H; now right). reflexivity.
Qed.
Lemma nth_map0 : forall (f : nat -> nat) l k, k < length l -> nth k (map f l) 0 = f (nth k l 0).
Proof. intros f l k Hk. rewrite (nth_indep _ 0 (f 0)) by (now rewrite map_length). apply map_nth. Qed.
Lemma cp_mul_map : forall t s, length t = length s -> (forall x, In x s -> x < length s) ->
  cp_mul t s = Some (map (fun i => nth i t 0) s).
Proof.
  intros t s L H. unfold cp_mul, mul_impl. rewrite (omap_nth _ _ (fun i => nth (nth i s 0) t 0)).
  - f_equal. apply (nth_ext _ _ 0 0); rewrite !map_length, seq_length; [lia|]. intros i Hi.
    rewrite nth_map0 by (now rewrite seq_length). rewrite seq_nth by exact Hi. cbn [Nat.add]. rewrite nth_map0 by lia. reflexivity.
  - intros i Hi. apply in_seq in Hi. rewrite (nth_error_nth' s 0) by lia. cbn [obind]. apply nth_error_nth'. rewrite L. apply H. apply nth_In. lia.
Qed.
