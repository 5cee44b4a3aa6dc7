(** Lemmas for C131, C132: loops over cells, and the operations on matrices. *)
From Coq Require Import List Arith NArith Bool Lia ZifyBool ZifyNat ZifyN FinFun.
From Verif Require Import PidModel MatModel ViewModel ViewSpec ViewProofs HeapModel HeapSpec HeapProofs.
Import ListNotations.
Open Scope nat_scope.

Lemma foldR_first_panic {A S} (f : S -> A -> res S) l s : l <> [] -> (forall x, In x l -> f s x = Panic) -> foldR f l s = Panic.
Proof. destruct l as [|x l]; [easy|]. intros _ H. cbn. rewrite (H x (or_introl eq_refl)). reflexivity. Qed.
Lemma foldR_first_undef {A S} (f : S -> A -> res S) l s : l <> [] -> (forall x, In x l -> f s x = Undef) -> foldR f l s = Undef.
Proof. destruct l as [|x l]; [easy|]. intros _ H. cbn. rewrite (H x (or_introl eq_refl)). reflexivity. Qed.
Lemma foldR_panic {A S} (f : S -> A -> res S) (I : S -> Prop) l : forall s, I s ->
  (forall s x, I s -> In x l -> f s x = Panic \/ exists s', f s x = Ok s' /\ I s') -> (exists x, In x l /\ forall s, I s -> f s x = Panic) -> foldR f l s = Panic.
Proof.
  induction l as [|x l IH]; intros s Hs H (y & Hy & Py); [easy|]. cbn.
  destruct (H s x Hs (or_introl eq_refl)) as [E|(s' & E & Hs')]; rewrite E; cbn; [reflexivity|].
  apply IH; [exact Hs'|intros s0 x0 H0 K; apply H; [exact H0|now right]|].
  destruct Hy as [->|Hy]; [|eauto]. rewrite (Py s Hs) in E. discriminate.
Qed.
Lemma foldR_ext {A S} (f g : S -> A -> res S) l : (forall s x, In x l -> f s x = g s x) -> forall s, foldR f l s = foldR g l s.
Proof.
  induction l as [|x l IH]; intros H s; [reflexivity|]. cbn. rewrite H by now left. destruct (g s x); cbn; [|reflexivity..].
  apply IH. intros s0 y Hy. apply H. now right.
Qed.
Lemma mapR_ok {A B} (f : A -> res B) (g : A -> B) l : (forall x, In x l -> f x = Ok (g x)) -> mapR f l = Ok (map g l).
Proof. induction l as [|x l IH]; intros H; [reflexivity|]. cbn. rewrite H by now left. cbn. rewrite IH by (intros; apply H; now right). reflexivity. Qed.
Lemma in_cells n m ij : In ij (cells n m) <-> fst ij < n /\ snd ij < m.
Proof. destruct ij as [i j]. unfold cells. rewrite in_prod_iff, !in_seq. cbn. lia. Qed.
Lemma cells_nonempty n m : n * m <> 0 -> cells n m <> [].
Proof. intros H E. assert (In (0, 0) (cells n m)) by (apply in_cells; cbn; nia). now rewrite E in H0. Qed.
Lemma nodup_app {A} (u v : list A) : NoDup u -> NoDup v -> (forall z, In z u -> ~ In z v) -> NoDup (u ++ v).
Proof.
  intros Hu Hv H. induction Hu as [|x u Hx Hu IH]; [exact Hv|]. cbn. constructor; [|apply IH; intros z Hz; apply H; now right].
  rewrite in_app_iff. intros [K|K]; [contradiction|]. apply (H x (or_introl eq_refl) K).
Qed.
Lemma nodup_prod {A B} (l : list A) (k : list B) : NoDup l -> NoDup k -> NoDup (list_prod l k).
Proof.
  intros Hl Hk. induction Hl as [|x l Hx Hl IH]; cbn; [constructor|]. apply nodup_app; [|exact IH|].
  - apply FinFun.Injective_map_NoDup; [intros a b [= ->]; reflexivity|exact Hk].
  - intros [a b] H K. apply in_map_iff in H. destruct H as (c & [= <- _] & _). apply in_prod_iff in K. now apply Hx.
Qed.
Lemma nodup_cells n m : NoDup (cells n m).
Proof. apply nodup_prod; apply seq_NoDup. Qed.

(** The positions [P] show [G], the others [F]. *)
Definition eqp (p q : nat * nat) : bool := (fst p =? fst q) && (snd p =? snd q).
Lemma eqp_true p q : eqp p q = true <-> p = q.
Proof. destruct p, q. unfold eqp. cbn. split; [intros E; f_equal; lia|intros [= -> ->]; lia]. Qed.
Definition mix {X} (P : list (nat * nat)) (G F : nat * nat -> X) : nat * nat -> X := fun p => if existsb (eqp p) P then G p else F p.
Lemma mix_in {X} P (G F : _ -> X) p : In p P -> mix P G F p = G p.
Proof. intros H. unfold mix. replace (existsb (eqp p) P) with true; [reflexivity|]. symmetry. apply existsb_exists. exists p. split; [exact H|now apply eqp_true]. Qed.
Lemma mix_out {X} P (G F : _ -> X) p : ~ In p P -> mix P G F p = F p.
Proof.
  intros H. unfold mix. destruct (existsb (eqp p) P) eqn:E; [|reflexivity]. apply existsb_exists in E. destruct E as (q & Hq & E). apply eqp_true in E. now subst q.
Qed.
Lemma mix_dec (P : list (nat * nat)) p : In p P \/ ~ In p P.
Proof. destruct (in_dec (fun a b : nat * nat => ltac:(decide equality; apply Nat.eq_dec)) p P); auto. Qed.

(** Different steps of a loop touch different positions. *)
Definition disjoint {A} (ks : A -> list (nat * nat)) (l : list A) : Prop := forall x y p, In x l -> In y l -> In p (ks x) -> In p (ks y) -> x = y.

Section H.
  Context {T : Type} {O : Ops T}.
  Variable nd : bool.
  Implicit Types (h : heap T) (F G : nat * nat -> option T).

  Lemma loop {A} (f : heap T -> A -> res (heap T)) ks b L G : forall l h F, NoDup l -> disjoint ks l -> blk h b L F ->
    (forall x h' F', In x l -> blk h' b L F' -> frame b h h' -> (forall p, In p (ks x) -> F' p = F p) ->
       exists h'', f h' x = Ok h'' /\ blk h'' b L (mix (ks x) G F') /\ frame b h' h'') ->
    exists h', foldR f l h = Ok h' /\ blk h' b L (mix (flat_map ks l) G F) /\ frame b h h'.
  Proof.
    induction l as [|x l IH]; intros h F ND D HB H.
    - exists h. split; [reflexivity|]. split; [|apply frame_refl]. exact HB.
    - destruct (H x h F (or_introl eq_refl) HB (frame_refl b h) (fun p _ => eq_refl)) as (h1 & E1 & B1 & F1).
      inversion ND as [|? ? Hx ND']. subst.
      destruct (IH h1 (mix (ks x) G F)) as (h2 & E2 & B2 & F2).
      + exact ND'.
      + intros y z p Hy Hz. apply D; now right.
      + exact B1.
      + intros y h' F' Hy HB' Fr' Hp. apply H; [now right|exact HB'|now apply (frame_trans b h h1)|].
        intros p K. rewrite Hp by exact K. apply mix_out. intros K'. assert (x = y) by (apply (D x y p); [now left|now right|exact K'|exact K]). now subst y.
      + exists h2. split; [cbn; rewrite E1; exact E2|]. split; [|now apply (frame_trans b h h1)].
        apply (blk_ext h2 b L (mix (flat_map ks l) G (mix (ks x) G F))); [|exact B2]. intros p _ _. cbn [flat_map].
        destruct (mix_dec (flat_map ks l) p) as [K|K].
        * rewrite !mix_in; [reflexivity|apply in_or_app; now right|exact K].
        * rewrite mix_out by exact K. destruct (mix_dec (ks x) p) as [K'|K'].
          -- rewrite !mix_in; [reflexivity|apply in_or_app; now left|exact K'].
          -- rewrite !mix_out; [reflexivity| |exact K']. rewrite in_app_iff. tauto.
  Qed.
  (** ... with the final contents given. *)
  Lemma loop_to {A} (f : heap T -> A -> res (heap T)) ks b L G l h F : NoDup l -> disjoint ks l -> blk h b L F ->
    (forall x h' F', In x l -> blk h' b L F' -> frame b h h' -> (forall p, In p (ks x) -> F' p = F p) ->
       exists h'', f h' x = Ok h'' /\ blk h'' b L (mix (ks x) G F') /\ frame b h' h'') ->
    (forall p, fst p < lh L -> snd p < lw L -> (forall x, In x l -> ~ In p (ks x)) -> F p = G p) ->
    exists h', foldR f l h = Ok h' /\ blk h' b L G /\ frame b h h'.
  Proof.
    intros ND D HB H HF. destruct (loop f ks b L G l h F ND D HB H) as (h' & E & B & Fr). exists h'. split; [exact E|]. split; [|exact Fr].
    apply (blk_ext h' b L (mix (flat_map ks l) G F)); [|exact B]. intros p H1 H2. destruct (mix_dec (flat_map ks l) p) as [K|K]; [now apply mix_in|].
    rewrite mix_out by exact K. apply HF; [exact H1|exact H2|]. intros x Hx Hp. apply K. apply in_flat_map. eauto.
  Qed.
  Lemma mix_upd F G p x q : G p = Some x -> upd F p x q = mix [p] G F q.
  Proof.
    intros E. unfold upd, mix. cbn [existsb]. rewrite orb_false_r. change (fst q =? fst p) with (fst q =? fst p). unfold eqp.
    destruct ((fst q =? fst p) && (snd q =? snd p)) eqn:B; [|reflexivity]. apply pair_eqb in B. subst q. now rewrite E.
  Qed.
  (** One assignment of the final value, as a step of a loop. *)
  Lemma assign_step h b L F G v r i j x : blk h b L F -> sees L v r -> i < rv_h r -> j < rv_w r -> nd = false \/ F (rv_at r i j) <> None -> G (rv_at r i j) = Some x ->
    exists h', assign nd h (b, v) i j x = Ok h' /\ blk h' b L (mix [rv_at r i j] G F) /\ frame b h h'.
  Proof.
    intros HB S Hi Hj HN HG. destruct (assign_ok nd h b L F v r i j x HB S Hi Hj HN) as (h' & E & B & Fr). exists h'. split; [exact E|]. split; [|exact Fr].
    apply (blk_ext _ _ _ _ _ (fun p _ _ => mix_upd F G _ x p HG) B).
  Qed.
  Lemma write_step h b n m F G i j x : blk h b (Layout false n m) F -> i < n -> j < m -> F (i, j) = None -> G (i, j) = Some x ->
    exists h', write nd h (Owned b (owner_new n m)) i j x = Ok h' /\ blk h' b (Layout false n m) (mix [(i, j)] G F) /\ frame b h h'.
  Proof.
    intros HB Hi Hj HN HG. destruct (write_ok nd h b n m F i j x HB Hi Hj HN) as (h' & E & B & Fr). exists h'. split; [exact E|]. split; [|exact Fr].
    apply (blk_ext _ _ _ _ _ (fun p _ _ => mix_upd F G _ x p HG) B).
  Qed.

  (** A fresh block. *)
  Definition extended h h' : Prop := length (h_blocks h') = S (length (h_blocks h)) /\ (forall b, b < length (h_blocks h) -> nth_error (h_blocks h') b = nth_error (h_blocks h) b) /\
    h_lost h' = h_lost h.
  Lemma extended_blk h h' b L F : extended h h' -> blk h b L F -> blk h' b L F.
  Proof. intros (_ & H & _) HB. pose proof (blk_lt _ _ _ _ HB) as Hb. destruct HB as (c & E & R). exists c. split; [rewrite H by exact Hb; exact E|exact R]. Qed.
  Lemma extended_frame h h1 h2 : extended h h1 -> frame (length (h_blocks h)) h1 h2 -> extended h h2.
  Proof.
    intros (A1 & A2 & A3) (B1 & B2 & B3 & _). split; [congruence|]. split; [|congruence]. intros b Hb. rewrite B2 by lia. now apply A2.
  Qed.
  Lemma new_ok h n m : n * m <> 0 -> exists h', new h n m = Ok (h', Owned (length (h_blocks h)) (owner_new n m)) /\
    blk h' (length (h_blocks h)) (Layout false n m) (fun _ => None) /\ extended h h'.
  Proof.
    intros H. unfold new. replace (n * m =? 0) with false by lia. eexists. split; [reflexivity|]. split.
    - exists (repeat None (n * m)). cbn [h_blocks]. split; [rewrite nth_error_app2, Nat.sub_diag by lia; reflexivity|].
      split; [apply repeat_length|]. intros p H1 H2. rewrite nth_error_repeat; [reflexivity|]. exact (laddr_lt (Layout false n m) p H1 H2).
    - unfold extended. cbn [h_blocks h_lost]. rewrite app_length. cbn. split; [lia|]. split; [|reflexivity]. intros b Hb. now apply nth_error_app1.
  Qed.
  Lemma disjoint_cells n m : disjoint (fun ij : nat * nat => [ij]) (cells n m).
  Proof. intros x y p _ _ [->|[]] [->|[]]. reflexivity. Qed.
  Definition entries (f : nat -> nat -> T) : nat * nat -> option T := fun p => Some (f (fst p) (snd p)).
  Lemma fill_write_ok h b n m f g : blk h b (Layout false n m) (fun _ => None) -> (forall h' i j, frame b h h' -> i < n -> j < m -> f h' i j = Ok (g i j)) ->
    exists h', fill_write nd h (Owned b (owner_new n m)) n m f = Ok h' /\ blk h' b (Layout false n m) (entries g) /\ frame b h h'.
  Proof.
    intros HB Hf. apply (loop_to _ (fun ij : nat * nat => [ij]) b _ (entries g) _ h (fun _ => None)); [apply nodup_cells|apply disjoint_cells|exact HB| |].
    - intros [i j] h' F' Hij HB' Fr HF'. apply in_cells in Hij. cbn [fst snd] in *. rewrite Hf by (assumption || apply Hij). cbn [rbind].
      apply write_step; [exact HB'|apply Hij|apply Hij|apply HF'; now left|reflexivity].
    - intros p H1 H2 H. exfalso. apply (H p); [|now left]. apply in_cells. now split.
  Qed.
  Lemma good_new n m : n * m <> 0 -> small (n, m) -> good (Layout false n m).
  Proof. intros H S. repeat split; cbn; try nia; apply S. Qed.
  Lemma fill_assign_ok h b n m f g : nd = false -> n * m <> 0 -> small (n, m) -> blk h b (Layout false n m) (fun _ => None) ->
    (forall h' i j, frame b h h' -> i < n -> j < m -> f h' i j = Ok (g i j)) ->
    exists h', fill_assign nd h (Owned b (owner_new n m)) n m f = Ok h' /\ blk h' b (Layout false n m) (entries g) /\ frame b h h'.
  Proof.
    intros Hnd Hnm Hs HB Hf. apply (loop_to _ (fun ij : nat * nat => [ij]) b _ (entries g) _ h (fun _ => None)); [apply nodup_cells|apply disjoint_cells|exact HB| |].
    - intros [i j] h' F' Hij HB' Fr HF'. apply in_cells in Hij. cbn [fst snd] in *. rewrite Hf by (assumption || apply Hij). cbn [rbind].
      apply (assign_step h' b (Layout false n m) F' (entries g) (owner_view (owner_new n m)) (rv_full n m) i j); [exact HB'| |apply Hij|apply Hij|now left|reflexivity].
      apply (sees_full (Layout false n m)). now apply good_new.
    - intros p H1 H2 H. exfalso. apply (H p); [|now left]. apply in_cells. now split.
  Qed.
  Lemma fill_assign_undef h b n m f : nd = true -> n * m <> 0 -> small (n, m) -> blk h b (Layout false n m) (fun _ => None) ->
    (exists x, f h 0 0 = Ok x) -> fill_assign nd h (Owned b (owner_new n m)) n m f = Undef.
  Proof.
    intros Hnd Hnm Hs HB (x & Hf). unfold fill_assign. destruct (cells n m) as [|ij l] eqn:E; [now apply cells_nonempty in E|].
    assert (ij = (0, 0)) as ->. { unfold cells in E. destruct n; [lia|]. destruct m; [lia|]. cbn in E. congruence. }
    cbn [foldR fst snd]. rewrite Hf. cbn [rbind]. unfold deref. cbn [o_block o_shape].
    rewrite (assign_undef nd h b (Layout false n m) (fun _ => None) (owner_view (owner_new n m)) (rv_full n m) 0 0 x); [reflexivity|exact HB| |cbn; nia|cbn; nia|exact Hnd|reflexivity].
    apply (sees_full (Layout false n m)). now apply good_new.
  Qed.
End H.
