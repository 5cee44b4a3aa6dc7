(** Property C57: edge paths. *)
From Coq Require Import List Arith Bool Lia ZifyBool ZifyNat Permutation.
From Verif Require Import PidModel EdgePathModel EdgePathSpec EdgePathProofs EdgePathProofs2 EdgePathProofs3 EdgePathProofs4 EdgePathProofs5.
From Verif Require Import PermModel PermSpec.
Import ListNotations.
Open Scope nat_scope.

(** [reduce_to_geodesic]: the result is homotopic to the path, its steps consist of disjoint edges, no edge can be moved to an
    earlier step, no step is empty (except in the result [[[]]] for a trivial path), and it is a geodesic: no homotopic word has
    fewer edges, and no homotopic path with simultaneous disjoint moves has fewer steps. *)
Theorem C57_reduce_geodesic : forall p r, reduce p = Some r ->
  homotopic (concat p) (concat r) /\ Forall parallel r /\ greedy r /\ (r = [[]] \/ Forall (fun s => s <> []) r) /\
  (forall w, homotopic (concat p) w -> length (concat r) <= length w) /\
  (forall q, Forall parallel q -> homotopic (concat p) (concat q) -> r = [[]] \/ length r <= length q).
Proof.
  intros p r H. pose proof (reduce_spec p) as S. rewrite H in S. destruct S as (_ & u & -> & R & Hu).
  destruct (foata_inv u R) as ((A & B) & _ & W). destruct (foata_word u R) as (F1 & F2).
  assert (Hr : homotopic (concat p) (concat (foata u))) by (eapply h_trans; eassumption).
  split; [exact Hr|]. split; [exact A|]. split; [apply foata_greedy|]. split; [exact B|]. split.
  - intros w K. assert (K' : homotopic (concat (foata u)) w) by (eapply h_trans; [apply h_sym, Hr|exact K]).
    apply NF_min in K'. rewrite NF_fixed, rev_length in K' by exact F2. exact K'.
  - intros q Pq K. destruct u as [|x u']; [now left|]. right. apply foata_steps; auto; [discriminate|].
    eapply h_trans; [apply h_sym, Hu|exact K].
Qed.
Print Assumptions C57_reduce_geodesic.
(** Paths are homotopic exactly when they reduce to the same steps (each step up to the order of its edges). *)
Theorem C57_reduce_decides : forall p q r s, reduce p = Some r -> reduce q = Some s ->
  (homotopic (concat p) (concat q) <-> Forall2 (@Permutation (nat * nat)) r s).
Proof.
  intros p q r s Hp Hq. pose proof (reduce_spec p) as Sp. rewrite Hp in Sp. destruct Sp as (_ & u & -> & Ru & Hu).
  pose proof (reduce_spec q) as Sq. rewrite Hq in Sq. destruct Sq as (_ & v & -> & Rv & Hv). split.
  - intros H. apply foata_unique; auto. eapply h_trans; [apply h_sym, Hu|]. eapply h_trans; [exact H|exact Hv].
  - intros H. eapply h_trans; [exact Hu|]. eapply h_trans; [|apply h_sym, Hv].
    eapply h_trans; [apply (foata_word u Ru)|]. eapply h_trans; [|apply h_sym, (foata_word v Rv)].
    apply teq_homotopic, ceq_teq; [|exact H]. destruct (foata_inv u Ru) as ([A _] & _). exact A.
Qed.
Print Assumptions C57_reduce_decides.
(** When it panics: exactly when a proper non-empty prefix of the path is already homotopic to the trivial path. *)
Theorem C57_reduce_panics : forall p, reduce p = None <->
  exists q x r, concat p = q ++ x :: r /\ q <> [] /\ homotopic q [].
Proof.
  intros p. pose proof (reduce_spec p) as S. destruct (reduce p) as [r|].
  - split; [discriminate|]. intros K. destruct S as [S _]. contradiction.
  - split; auto.
Qed.
Print Assumptions C57_reduce_panics.
(** A path that can be reduced, composed with its inverse, reduces to the one-step empty path; for an already reduced path the
    inverse never panics. *)
Theorem C57_inverse_partial : forall p r, reduce p = Some r ->
  (forall q, inverse p = Some q -> homotopic (concat q) (backwards (concat p)) /\ reduce (composed_with p q) = Some [[]]) /\
  (exists q, inverse r = Some q /\ reduce (composed_with r q) = Some [[]]).
Proof.
  intros p r H. split; [|eapply geodesic_inverse; eassumption]. intros q Hq. split; [|eapply inverse_cancels; eassumption].
  unfold inverse in Hq. cbv zeta in Hq.
  pose proof (reduce_spec (rev (map (@rev (nat * nat)) (map (map (fun e : nat * nat => (snd e, fst e))) p)))) as S. rewrite Hq, inverse_word in S.
  destruct S as (_ & u & -> & R & Hu). apply h_sym. eapply h_trans; [exact Hu|]. now apply foata_word.
Qed.
Print Assumptions C57_inverse_partial.
(** Missing from the full claim, because it is false: the empty path is returned as [[[]]], which is not equal to
    [trivial_path()]; and a path such as e, e reversed, f makes [reduce_to_geodesic] panic, as does the inverse of f, e, e reversed. *)
Theorem C57_trivial_refuted : exists r, reduce trivial_path = Some r /\ r <> trivial_path /\
  forall p q, reduce p <> Some trivial_path /\ inverse q <> Some trivial_path.
Proof.
  assert (forall p, reduce p <> Some trivial_path) as K.
  { intros p H. pose proof (reduce_spec p) as S. rewrite H in S. destruct S as (_ & u & E & R & Hu).
    unfold foata, insall in E. destruct u as [|x u] using rev_ind; [discriminate|]. rewrite fold_left_app in E. cbn [fold_left] in E.
    symmetry in E. exact (ins_ne _ _ E). }
  exists [[]]. split; [reflexivity|]. split; [discriminate|]. intros p q. split; [apply K|]. unfold inverse. apply K.
Qed.
Print Assumptions C57_trivial_refuted.
Theorem C57_panics_refuted : reduce [[(0, 1)]; [(1, 0)]; [(2, 3)]] = None /\ inverse [[(2, 3)]; [(0, 1)]; [(1, 0)]] = None.
Proof. split; reflexivity. Qed.
Print Assumptions C57_panics_refuted.
Example C57_nontrivial : reduce [[(0, 1)]; [(2, 3)]; [(1, 4)]; [(5, 6)]; [(4, 1)]; [(3, 7)]] = Some [[(0, 1); (2, 3); (5, 6)]; [(3, 7)]].
Proof. reflexivity. Qed.

(** Evaluation: when the edges of the path, travelled one after the other, move tokens standing on 0, .., n-1 to the vertices
    [c] without collisions, the evaluation is [c]; so is that of the reduced path. *)
Theorem C57_evaluate : forall n p c, Forall parallel p -> moves (seq 0 n) (concat p) c ->
  evaluate n p = Some c /\ (forall r, reduce p = Some r -> evaluate n r = Some c).
Proof.
  intros n p c P M. split; [now apply evaluate_spec|]. intros r H. apply evaluate_spec; [eapply reduce_parallel; eassumption|].
  eapply moves_reduce; [apply seq_NoDup|eassumption|exact M].
Qed.
Print Assumptions C57_evaluate.
(** It is multiplicative, for paths returning the tokens to the vertices 0, .., n-1. *)
Theorem C57_multiplicative : forall n p q s t, Forall parallel p -> Forall parallel q ->
  moves (seq 0 n) (concat p) s -> moves (seq 0 n) (concat q) t -> is_table s ->
  evaluate n p = Some s /\ evaluate n q = Some t /\
  exists st, cp_mul t s = Some st /\ evaluate n (composed_with p q) = Some st /\
    forall i, i < n -> nth i st 0 = nth (nth i s 0) t 0.
Proof.
  intros n p q s t Pp Pq Mp Mq Ts. split; [now apply evaluate_spec|]. split; [now apply evaluate_spec|].
  pose proof (moves_length _ _ _ Mp) as Ls. pose proof (moves_length _ _ _ Mq) as Lt. rewrite seq_length in Ls, Lt.
  exists (map (fun i => nth i t 0) s). split; [apply cp_mul_map; [lia|apply Ts]|]. split.
  - apply evaluate_spec; [unfold composed_with; now apply Forall_app|]. unfold composed_with. rewrite concat_app. apply moves_app. exists s. split; [exact Mp|].
    assert (M' := moves_relabel _ _ _ Mq (seq_NoDup _ _) s Ts ltac:(rewrite seq_length; lia)).
    replace (map (fun i => nth i (seq 0 n) 0) s) with s in M'; [exact M'|].
    rewrite <- (map_id s) at 1. apply map_ext_in. intros i Hi. rewrite seq_nth; [reflexivity|]. rewrite <- Ls. now apply Ts.
  - intros i Hi. apply nth_map0. lia.
Qed.
Print Assumptions C57_multiplicative.
(** The inverse path evaluates to the inverse permutation. *)
Theorem C57_inverse_permutation : forall n p q s, Forall parallel p -> moves (seq 0 n) (concat p) s -> is_table s -> inverse p = Some q ->
  exists t, evaluate n q = Some t /\ cp_mul t s = Some (cp_identity n) /\ cp_mul s t = Some (cp_identity n).
Proof.
  intros n p q s P M Ts Hq. pose proof (moves_length _ _ _ M) as Ls. rewrite seq_length in Ls.
  set (t := map (fun i => match find (fun k => nth k s 0 =? i) (seq 0 n) with Some k => k | None => 0 end) (seq 0 n)).
  assert (Hn : forall i, i < n -> nth i t 0 < n /\ nth (nth i t 0) s 0 = i).
  { intros i Hi. unfold t. rewrite nth_map0 by now rewrite seq_length. rewrite seq_nth by exact Hi. cbn [Nat.add].
    assert (In i s) as Hs.
    { assert (incl (seq 0 n) s) as Hincl; [|apply Hincl; apply in_seq; lia].
      apply NoDup_length_incl; [apply Ts|rewrite seq_length; lia|]. intros k Hk. apply in_seq. destruct Ts as [_ Tb]. specialize (Tb k Hk). lia. }
    apply In_nth with (d := 0) in Hs. destruct Hs as (j & Hj & Ej).
    pose proof (find_seq (fun k => nth k s 0 =? i) n) as F. destruct (find _ (seq 0 n)) as [k|].
    - destruct F as [F1 F2]. split; [exact F1|]. now apply Nat.eqb_eq.
    - specialize (F j ltac:(lia)). cbv beta in F. rewrite Ej, Nat.eqb_refl in F. discriminate. }
  assert (Lt : length t = n) by (unfold t; now rewrite map_length, seq_length).
  assert (Ht : is_table t).
  { split.
    - apply (NoDup_nth t 0). intros i j Hi Hj E. rewrite Lt in *. destruct (Hn i Hi) as [_ <-]. destruct (Hn j Hj) as [_ <-]. now rewrite E.
    - intros x Hx. apply In_nth with (d := 0) in Hx. destruct Hx as (i & Hi & <-). rewrite Lt in *. now apply Hn. }
  assert (St : forall i, i < n -> nth (nth i s 0) t 0 = i).
  { intros i Hi. destruct Ts as [Tn Tb]. assert (Hsi : nth i s 0 < n) by (rewrite <- Ls; apply Tb, nth_In; lia).
    destruct (Hn _ Hsi) as [A B]. apply (NoDup_nth s 0); auto; lia. }
  assert (C1 : map (fun i => nth i t 0) s = seq 0 n).
  { apply (nth_ext _ _ 0 0); rewrite map_length; [now rewrite seq_length|]. intros i Hi. rewrite nth_map0 by exact Hi.
    rewrite seq_nth by lia. apply St. lia. }
  assert (C2 : map (fun i => nth i s 0) t = seq 0 n).
  { apply (nth_ext _ _ 0 0); rewrite map_length; [now rewrite seq_length|]. intros i Hi. rewrite nth_map0 by exact Hi.
    rewrite seq_nth by lia. apply Hn. lia. }
  exists t. split; [|split].
  - unfold inverse in Hq. cbv zeta in Hq. apply evaluate_spec; [eapply reduce_parallel; exact Hq|].
    apply (moves_reduce _ _ _ _ (seq_NoDup _ _) Hq). rewrite inverse_word.
    pose proof (moves_backwards _ _ _ M (seq_NoDup _ _)) as B.
    pose proof (moves_relabel _ _ _ B (proj1 Ts) t Ht ltac:(lia)) as B'. rewrite C2 in B'.
    replace (map (fun i => nth i (seq 0 n) 0) t) with t in B'; [exact B'|].
    rewrite <- (map_id t) at 1. apply map_ext_in. intros i Hi. rewrite seq_nth; [reflexivity|]. rewrite <- Lt. now apply Ht.
  - rewrite (cp_mul_map t s) by (auto; try lia; apply Ts). now rewrite C1.
  - rewrite (cp_mul_map s t) by (auto; try lia; apply Ht). now rewrite C2.
Qed.
Print Assumptions C57_inverse_permutation.
(** A rotation of two tokens through the Y-shaped graph with centre 3. *)
Definition swap_path : list (list (nat * nat)) := [[(1, 3)]; [(3, 2)]; [(0, 3)]; [(3, 1)]; [(2, 3)]; [(3, 0)]].
Example C57_evaluate_nontrivial : moves (seq 0 2) (concat swap_path) [1; 0] /\ is_table [1; 0] /\
  evaluate 2 swap_path = Some [1; 0] /\ evaluate 2 (composed_with swap_path swap_path) = Some [0; 1] /\
  exists q, inverse swap_path = Some q /\ evaluate 2 q = Some [1; 0].
Proof.
  split.
  { cbn. eapply mv_cons; [apply (mv1 [0] [] 1 3); cbn; lia|]. eapply mv_cons; [apply (mv1 [0] [] 3 2); cbn; lia|].
    eapply mv_cons; [apply (mv1 [] [2] 0 3); cbn; lia|]. eapply mv_cons; [apply (mv1 [] [2] 3 1); cbn; lia|].
    eapply mv_cons; [apply (mv1 [1] [] 2 3); cbn; lia|]. eapply mv_cons; [apply (mv1 [1] [] 3 0); cbn; lia|]. constructor. }
  split; [split; [repeat constructor; cbn; intuition lia|cbn; intuition lia]|]. split; [reflexivity|]. split; [reflexivity|].
  eexists. split; reflexivity.
Qed.
