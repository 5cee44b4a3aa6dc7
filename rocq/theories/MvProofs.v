(** Proofs for C106. *)
From Coq Require Import List Arith ZArith Bool Reals Lia ZifyBool Sorted.
From Verif Require Import PidModel MatModel MatSpec MatProofs NumModel SparseModel SparseProps AnaModel AnaSpec AnaProofs AnaProps MvModel.
Import ListNotations.
Open Scope nat_scope.

(** The theorems about sparse matrices carry an (unused) structure on the entries. *)
Definition ops_afn : Ops afn := {| t0 := AZero; t1 := AOne; tadd := fun f _ => f; tmul := fun f _ => f; tsub := fun f _ => f; topp := fun f => f |}.

Section Tab.
  Context {T : Type}.
  Implicit Types rw : nat -> list (nat * T).
  Definition tab_row rw (i : nat) : list ((nat * nat) * T) := map (fun p => ((i, fst p), snd p)) (rw i).
  Definition tab rw (a n : nat) : list ((nat * nat) * T) := concat (map (tab_row rw) (seq a n)).
  Notation lt2 := (fun a b : nat * nat => idx_ltb a b = true).
  Lemma sorted_ok l : StronglySorted lt2 l -> idx_sorted l = true.
  Proof.
    induction 1 as [|a l H IH F]; [reflexivity|]. destruct l as [|b l]; [reflexivity|]. cbn [idx_sorted]. apply andb_true_intro. split; [now inversion F|exact IH].
  Qed.
  Lemma in_tab rw a n i j v : In ((i, j), v) (tab rw a n) <-> a <= i < a + n /\ In (j, v) (rw i).
  Proof.
    unfold tab. rewrite in_concat. split.
    - intros (r & Hr & Hin). apply in_map_iff in Hr. destruct Hr as (k & <- & Hk). apply in_seq in Hk. apply in_map_iff in Hin. destruct Hin as ((j', v') & E & Hin). cbn in E. injection E as -> -> ->. auto.
    - intros (Hi & Hin). exists (tab_row rw i). split; [apply in_map, in_seq; lia|]. apply in_map_iff. exists (j, v). auto.
  Qed.
  Lemma SSorted_app {A} (R : A -> A -> Prop) l1 l2 : StronglySorted R l1 -> StronglySorted R l2 -> (forall a b, In a l1 -> In b l2 -> R a b) -> StronglySorted R (l1 ++ l2).
  Proof.
    induction 1 as [|a l H IH F]; intros H2 HR; [exact H2|]. cbn. constructor; [apply IH; auto; intros; apply HR; [now right|assumption]|]. apply Forall_app. split; [exact F|]. apply Forall_forall. intros b Hb. apply HR; [now left|exact Hb].
  Qed.
  Lemma tab_sorted rw n : forall a, (forall i, a <= i < a + n -> StronglySorted (fun p q => fst p < fst q) (rw i)) -> StronglySorted lt2 (map fst (tab rw a n)).
  Proof.
    induction n as [|n IH]; intros a H; [constructor|]. unfold tab. cbn [seq map concat]. rewrite map_app. apply SSorted_app.
    - assert (K := H a ltac:(lia)). unfold tab_row. rewrite map_map. cbn [fst snd]. induction K as [|p l K1 K2 K3]; cbn [map]; constructor; [assumption|].
      apply Forall_forall. intros b Hb. apply in_map_iff in Hb. destruct Hb as (q & <- & Hq). rewrite Forall_forall in K3. specialize (K3 _ Hq). unfold idx_ltb. cbn [fst snd]. lia.
    - apply (IH (S a)). intros i Hi. apply H. lia.
    - intros p q Hp Hq. unfold tab_row in Hp. rewrite map_map in Hp. apply in_map_iff in Hp. destruct Hp as (p' & <- & _). apply in_map_iff in Hq. destruct Hq as (((i & j) & v) & <- & Hq). apply (in_tab rw (S a) n) in Hq. unfold idx_ltb. cbn [fst snd]. lia.
  Qed.
  Lemma SS_unique (l : list (nat * T)) j v w : StronglySorted (fun p q => fst p < fst q) l -> In (j, v) l -> In (j, w) l -> v = w.
  Proof.
    induction 1 as [|p l H IH F]; [intros []|]. rewrite Forall_forall in F. intros [->|H1] [E|H2].
    - now injection E.
    - specialize (F _ H2). cbn in F. lia.
    - subst p. specialize (F _ H1). cbn in F. lia.
    - auto.
  Qed.
  Lemma table_get_tab rw n i j v : (forall i, i < n -> StronglySorted (fun p q => fst p < fst q) (rw i)) ->
    (table_get (tab rw 0 n) i j = Some v <-> i < n /\ In (j, v) (rw i)).
  Proof.
    intros H. unfold table_get. destruct (find _ (tab rw 0 n)) as [[[i' j'] v']|] eqn:E.
    - apply find_some in E. destruct E as [Hin E]. cbn [fst snd] in E. assert (i' = i) by lia. assert (j' = j) by lia. subst i' j'. apply in_tab in Hin. cbn [snd]. split.
      + intros Ev. injection Ev as ->. split; [lia|tauto].
      + intros [Hi Hv]. f_equal. apply (SS_unique (rw i) j); [now apply H|tauto|exact Hv].
    - split; [discriminate|]. intros [Hi Hv]. pose proof (find_none _ _ E ((i, j), v)) as K. cbn [fst snd] in K. rewrite !Nat.eqb_refl in K. discriminate K. apply in_tab. split; [lia|exact Hv].
  Qed.
  (** The sparse matrix made of the table [rw]. *)
  Lemma sparse_of_tab rw n m : (forall i, i < n -> StronglySorted (fun p q => fst p < fst q) (rw i)) ->
    sparse_of_table n m (tab rw 0 n) = sparse_from n m (table_get (tab rw 0 n)).
  Proof. intros H. unfold sparse_of_table. rewrite sorted_ok; [reflexivity|]. apply tab_sorted. intros i Hi. apply H. lia. Qed.
End Tab.

Lemma omapM_seq {A} (G : nat -> option A) g n : forall a, (forall i, a <= i < a + n -> G i = Some (g i)) -> omapM G (seq a n) = Some (map g (seq a n)).
Proof. intros a H. apply omapM_some. intros i Hi. apply in_seq in Hi. apply H. lia. Qed.
Lemma omapM_combine {A B} (G : nat * A -> option B) (g : nat -> B) (l : list A) : forall a,
  (forall i x, nth_error l i = Some x -> G (a + i, x) = Some (g (a + i))) -> omapM G (combine (seq a (length l)) l) = Some (map g (seq a (length l))).
Proof.
  induction l as [|x l IH]; intros a H; [reflexivity|]. cbn [length seq combine omapM map]. pose proof (H 0 x eq_refl) as H0. rewrite Nat.add_0_r in H0. rewrite H0. cbn [obind].
  rewrite IH; [reflexivity|]. intros i y Hy. replace (S a + i) with (a + S i) by lia. now apply H.
Qed.

(** The partial derivatives as a total function. *)
Definition pd (f : afn) (j : nat) : afn := match pderiv j f with Some g => g | None => AZero end.
Lemma pderiv_pd f j : pderiv j f = Some (pd f j).
Proof. unfold pd. destruct (pderiv_total j f) as (g & ->). reflexivity. Qed.
Lemma omap_map {A B} (F : A -> option B) g l : (forall x, F x = Some (g x)) -> omap F l = Some (map g l).
Proof. intros H. induction l as [|a l IH]; [reflexivity|]. cbn [omap]. rewrite H. cbn [obind]. rewrite IH. reflexivity. Qed.
Lemma jac_pd f dim : 0 < dim -> a_jacobian f dim = Some (map (pd f) (seq 0 dim)).
Proof. intros H. unfold a_jacobian. replace (0 <? dim) with true by lia. apply omap_map. intros i. apply pderiv_pd. Qed.
Definition jrow (F : mv) (i : nat) : list (nat * afn) :=
  match nth_error (mv_fns F) i with
  | Some f => filter (fun p => negb (a_eqb (snd p) AZero)) (map (fun j => (j, pd f j)) (seq 0 (mv_dim F)))
  | None => []
  end.
Lemma combine_map_seq {B} (g : nat -> B) l : combine l (map g l) = map (fun j => (j, g j)) l.
Proof. induction l as [|a l IH]; [reflexivity|]. cbn. now rewrite IH. Qed.
Lemma filter_sorted {A} (R : A -> A -> Prop) p l : StronglySorted R l -> StronglySorted R (filter p l).
Proof.
  induction 1 as [|a l H IH F]; [constructor|]. cbn. destruct (p a); [|exact IH]. constructor; [exact IH|]. rewrite Forall_forall in *. intros b Hb. apply filter_In in Hb. now apply F.
Qed.
Lemma seq_sorted {B} (g : nat -> B) n : forall a, StronglySorted (fun p q => fst p < fst q) (map (fun j => (j, g j)) (seq a n)).
Proof.
  induction n as [|n IH]; intros a; [constructor|]. cbn [seq map]. constructor; [apply IH|]. apply Forall_forall. intros q Hq. apply in_map_iff in Hq. destruct Hq as (j & <- & Hj). apply in_seq in Hj. cbn [fst]. lia.
Qed.
Lemma jrow_sorted F i : StronglySorted (fun p q => fst p < fst q) (jrow F i).
Proof. unfold jrow. destruct (nth_error _ i); [|constructor]. apply filter_sorted, seq_sorted. Qed.
Lemma in_jrow F i j g : In (j, g) (jrow F i) <-> exists f, nth_error (mv_fns F) i = Some f /\ j < mv_dim F /\ pderiv j f = Some g /\ g <> AZero.
Proof.
  unfold jrow. destruct (nth_error (mv_fns F) i) as [f|]; [|split; [intros []|intros (f & E & _); discriminate E]]. rewrite filter_In, in_map_iff. cbn [snd]. split.
  - intros ((j' & E & Hj) & N). injection E as -> <-. apply in_seq in Hj. apply negb_true_iff, a_eqb_neq in N. exists f. split; [reflexivity|]. split; [lia|]. split; [apply pderiv_pd|exact N].
  - intros (f' & E & Hj & Hg & N). injection E as <-. rewrite pderiv_pd in Hg. injection Hg as <-. split; [exists j; split; [reflexivity|apply in_seq; lia]|]. now apply negb_true_iff, a_eqb_neq.
Qed.
Lemma mv_jacobian_ok F : 0 < mv_dim F ->
  mv_jacobian F = sparse_from (length (mv_fns F)) (mv_dim F) (table_get (tab (jrow F) 0 (length (mv_fns F)))).
Proof.
  intros Hd. unfold mv_jacobian. rewrite (omapM_combine _ (tab_row (jrow F))).
  - cbn [obind]. apply sparse_of_tab. intros; apply jrow_sorted.
  - intros i f Hf. cbn [fst snd Nat.add]. unfold mv_row. rewrite jac_pd by assumption. cbn [obind]. f_equal. unfold tab_row, jrow. rewrite Hf. now rewrite combine_map_seq.
Qed.
Definition jget (F : mv) (i j : nat) : option afn := table_get (tab (jrow F) 0 (length (mv_fns F))) i j.
Lemma jget_spec F i j g : jget F i j = Some g <-> exists f, nth_error (mv_fns F) i = Some f /\ j < mv_dim F /\ pderiv j f = Some g /\ g <> AZero.
Proof.
  unfold jget. rewrite table_get_tab by (intros; apply jrow_sorted). rewrite in_jrow. split; [tauto|]. intros H. split; [|exact H]. destruct H as (f & E & _). apply nth_error_Some. congruence.
Qed.

(** [eval] of a sparse matrix of functions. *)
Definition erow (x : list R) (l : list (nat * afn)) : list (nat * R) := map (fun p => (fst p, match eval x (snd p) with Some v => v | None => 0%R end)) l.
Lemma in_erow x l j v : (forall j g, In (j, g) l -> exists v, eval x g = Some v) -> (In (j, v) (erow x l) <-> exists g, In (j, g) l /\ eval x g = Some v).
Proof.
  intros H. unfold erow. rewrite in_map_iff. split.
  - intros ((j' & g) & E & Hin). cbn [fst snd] in E. destruct (H _ _ Hin) as (w & Ew). rewrite Ew in E. injection E as -> ->. eauto.
  - intros (g & Hin & E). exists (j, g). cbn [fst snd]. rewrite E. auto.
Qed.
Lemma erow_sorted x l : StronglySorted (fun p q => fst p < fst q) l -> StronglySorted (fun p q => fst p < fst q) (erow x l).
Proof.
  induction 1 as [|a l H IH F]; [constructor|]. cbn. constructor; [exact IH|]. rewrite Forall_forall in *. intros q Hq. apply in_map_iff in Hq. destruct Hq as (p & <- & Hp). cbn [fst]. now apply F.
Qed.
Lemma sparse_eval_ok s n m x rw : s_size s = (n, m) -> (forall i, i < n -> row_iter s i = Some (rw i)) -> (forall i, i < n -> StronglySorted (fun p q => fst p < fst q) (rw i)) ->
  (forall i j g, i < n -> In (j, g) (rw i) -> exists v, eval x g = Some v) ->
  sparse_eval s x = sparse_from n m (table_get (tab (fun i => erow x (rw i)) 0 n)).
Proof.
  intros Hs Hr HS Hv. unfold sparse_eval. rewrite Hs. cbn [fst snd]. rewrite (omapM_seq _ (tab_row (fun i => erow x (rw i)))).
  - cbn [obind]. apply sparse_of_tab. intros i Hi. now apply erow_sorted, HS.
  - intros i Hi. rewrite Hr by lia. cbn [obind]. unfold tab_row, erow. rewrite map_map. cbn [fst snd]. apply omapM_some. intros (j, g) Hin. cbn [fst snd]. destruct (Hv i j g ltac:(lia) Hin) as (v & ->). reflexivity.
Qed.
