(** Histories, permutation action, connectivity. *)
From Coq Require Import List Arith NArith Bool Lia ZifyBool ZifyNat ZifyN Permutation.
From Verif Require Import UtilModel UtilSpec UtilProofs PidModel PermModel PermSpec PermProofs PermProofs2 PermProofs3 PermProofs4 PermProps MatModel SnfModel SnfProofs2 GraphModel GraphSpec GraphProofs.
Import ListNotations.
Open Scope nat_scope.

(** ** Histories *)
Lemma c_op_spec o g : GI g -> if op_ok (g_n g) o then exists g', c_op o g = Some g' /\ GI g' /\ g_n g' = g_n g /\ g_tree g' = g_tree g /\ forall x y, edge g' x y = a_op o (edge g) x y
  else c_op o g = None.
Proof.
  intros HG. destruct o as [i j|i j|i j|i]; cbn [op_ok c_op a_op].
  - destruct ((i <? j) && (j <? g_n g)) eqn:E; [apply add_edge_spec; lia || assumption|now apply add_edge_bad].
  - destruct ((i <? j) && (j <? g_n g)) eqn:E; [apply remove_edge_spec; lia || assumption|now apply add_edge_bad].
  - destruct ((i <? j) && (j <? g_n g)) eqn:E; [apply swap_spec; lia || assumption|now apply swap_bad].
  - destruct (Nat.ltb_spec i (g_n g)) as [H|H]; [now apply remove_adj_spec|]. unfold remove_adj. now rewrite adj_bad.
Qed.
Lemma a_op_ext o r s : (forall x y, r x y = s x y) -> forall x y, a_op o r x y = a_op o s x y.
Proof. intros H x y. destruct o; cbn [a_op]; now rewrite H. Qed.
Lemma run_ops n : forall h g r, GI g -> g_n g = n -> (forall x y, edge g x y = r x y) ->
  if forallb (op_ok n) h then exists g', foldM (fun g o => c_op o g) h g = Some g' /\ GI g' /\ g_n g' = n /\ g_tree g' = g_tree g /\ forall x y, edge g' x y = fold_left (fun r o => a_op o r) h r x y
  else foldM (fun g o => c_op o g) h g = None.
Proof.
  induction h as [|o h IH]; intros g r HG Hn HE; cbn [forallb foldM fold_left]; [exists g; auto|].
  pose proof (c_op_spec o g HG) as HO. rewrite Hn in HO. destruct (op_ok n o); cbn [andb]; [|now rewrite HO].
  destruct HO as (g1 & E1 & HG1 & N1 & T1 & R1). rewrite E1. cbn [obind].
  specialize (IH g1 (a_op o r) HG1 N1). assert (HE1 : forall x y, edge g1 x y = a_op o r x y) by (intros x y; rewrite R1; now apply a_op_ext).
  specialize (IH HE1). destruct (forallb (op_ok n) h); [|exact IH]. destruct IH as (g2 & E2 & HG2 & N2 & T2 & R2). exists g2. split; [exact E2|]. split; [exact HG2|]. split; [exact N2|]. split; [congruence|exact R2].
Qed.

(** ** Permutation action *)
Lemma foldM_fold_left {A S} (f : S -> A -> option S) l s : fold_left (fun acc x => do w <- acc; f w x) l (Some s) = foldM f l s.
Proof.
  revert s. induction l as [|x l IH]; intros s; [reflexivity|]. cbn [fold_left foldM obind]. destruct (f s x) as [s'|]; cbn [obind]; [apply IH|]. clear. induction l; auto.
Qed.

Definition gsame (g h : rawg) : Prop := GI h /\ g_n h = g_n g /\ g_tree h = g_tree g.
Lemma tau_trans a b x : tau a b x = trans_map a b x.
Proof. reflexivity. Qed.
Lemma g_gen_spec g p : GI g -> gen_ok p -> gen_below (g_n g) p ->
  exists h, g_gen_action g p = Some h /\ gsame g h /\ forall x y, edge h (pmap p x) (pmap p y) = edge g x y.
Proof.
  intros HG G B. unfold g_gen_action. destruct (perm_eq_dec p identity) as [->|Hn].
  - exists g. split; [reflexivity|]. split; [now split|]. intros x y. now rewrite !pmap_identity.
  - pose proof (fun x => gen_involution p x G) as HI. destruct G as [?|(a & b & Hab & E)]; [contradiction|].
    destruct (transposition_spec a b Hab) as (t & Et & _ & M & U). assert (t = p) by congruence. subst t. rewrite U. cbn [obind].
    destruct (B a b Hab E) as [Ba Bb].
    assert (K : exists i j, (if a <? b then [a; b] else [b; a]) = [i; j] /\ i < j /\ j < g_n g /\ forall x, tau i j x = pmap p x).
    { destruct (Nat.ltb_spec a b).
      - exists a, b. split; [reflexivity|]. split; [lia|]. split; [lia|]. intros x. now rewrite M.
      - exists b, a. split; [reflexivity|]. split; [lia|]. split; [lia|]. intros x. rewrite M. unfold tau, trans_map.
        destruct (Nat.eqb_spec x a), (Nat.eqb_spec x b); lia. }
    destruct K as (i & j & -> & Hi & Hj & T). destruct (swap_spec g i j HG Hi Hj) as (h & Eh & HGh & N & Tr & R).
    exists h. split; [exact Eh|]. split; [now split|]. intros x y. now rewrite R, !T, !HI.
Qed.
Lemma g_gen_bad g p h : gen_ok p -> g_gen_action g p = Some h -> gen_below (g_n g) p.
Proof.
  intros G E a b Hab Et. unfold g_gen_action in E. pose proof (trans_not_id a b p Hab Et). destruct (perm_eq_dec p identity); [contradiction|].
  destruct (transposition_spec a b Hab) as (t & Et' & _ & M & U). assert (t = p) by congruence. subst t. rewrite U in E. cbn [obind] in E.
  destruct (Nat.ltb_spec a b); unfold g_swap in E.
  - destruct ((a <? b) && (b <? g_n g)) eqn:C; [lia|discriminate E].
  - destruct ((b <? a) && (a <? g_n g)) eqn:C; [lia|discriminate E].
Qed.
Lemma g_fold_spec gens : forall g, GI g -> Forall gen_ok gens -> Forall (gen_below (g_n g)) gens ->
  exists h, foldM g_gen_action gens g = Some h /\ gsame g h /\ forall x y, edge h (compose_all gens x) (compose_all gens y) = edge g x y.
Proof.
  induction gens as [|p gens IH]; intros g HG G B; cbn [foldM compose_all]; [exists g; split; [reflexivity|]; split; [now split|reflexivity]|].
  inversion G; subst. inversion B; subst. destruct (g_gen_spec g p) as (h & E & (HGh & N & T) & R); auto. rewrite E. cbn [obind].
  destruct (IH h) as (k & Ek & (HGk & Nk & Tk) & Rk); auto; [now rewrite N|]. exists k. split; [exact Ek|]. split; [split; [exact HGk|split; congruence]|].
  intros x y. now rewrite Rk.
Qed.
Lemma g_fold_bad gens : forall g h, GI g -> Forall gen_ok gens -> foldM g_gen_action gens g = Some h -> Forall (gen_below (g_n g)) gens.
Proof.
  induction gens as [|p gens IH]; intros g h HG G E; [constructor|]. inversion G; subst. cbn [foldM] in E.
  destruct (g_gen_action g p) as [k|] eqn:Ek; [|discriminate E]. cbn [obind] in E. pose proof (g_gen_bad g p k ltac:(assumption) Ek) as B.
  constructor; [exact B|]. destruct (g_gen_spec g p) as (k' & E' & (HGk & N & T) & _); auto. assert (k' = k) by congruence. subst k'. rewrite <- N. eapply IH; eauto.
Qed.
Lemma g_action_spec g p : GI g -> normal p -> (forall x, pmap p x <> x -> x < g_n g) ->
  exists h, g_action g p = Some h /\ gsame g h /\ forall x y, edge h (pmap p x) (pmap p y) = edge g x y.
Proof.
  intros HG H B. unfold g_action. destruct (gens_spec p H) as (gens & E & G & M & _ & _ & T2). rewrite E. cbn [obind].
  destruct (g_fold_spec gens g HG G) as (w & Ew & L & N).
  - apply Forall_forall. intros t Hg a b Hab Et. destruct (T2 a b t Hg Hab Et). split; apply B; apply pmap_support; auto.
  - exists w. split; [exact Ew|]. split; [exact L|]. intros x y. now rewrite <- !M.
Qed.
Lemma g_action_bad g p x : GI g -> normal p -> pmap p x <> x -> g_n g <= x -> g_action g p = None.
Proof.
  intros HG H Hx L. unfold g_action. destruct (gens_spec p H) as (gens & E & G & M & _ & T1 & _). rewrite E. cbn [obind].
  destruct (foldM _ gens g) as [w|] eqn:Ew; auto. exfalso.
  apply g_fold_bad in Ew; auto. apply pmap_support in Hx; auto. destruct (T1 x Hx) as (a & b & t & Hab & Hx' & Hg & Et).
  rewrite Forall_forall in Ew. destruct (Ew t Hg a b Hab Et). lia.
Qed.
Lemma g_action_mul g p q : GI g -> normal p -> normal q ->
  (forall x, pmap p x <> x -> x < g_n g) -> (forall x, pmap q x <> x -> x < g_n g) ->
  exists r u w, pmul p q = Some r /\ g_action g q = Some u /\ g_action u p = Some w /\ g_action g r = Some w.
Proof.
  intros HG Hp Hq Bp Bq. destruct (pmul_spec p q Hp Hq) as (r & Er & Hr & Mr).
  destruct (g_action_spec g q HG Hq Bq) as (u & Eu & (HGu & Nu & Tu) & Ru).
  destruct (g_action_spec u p HGu Hp) as (w & Ew & (HGw & Nw & Tw) & Rw). { rewrite Nu. auto. }
  destruct (g_action_spec g r HG Hr) as (w' & Ew' & (HGw' & Nw' & Tw') & Rw').
  { intros x Hx. rewrite Mr in Hx. destruct (Nat.eq_dec (pmap q x) x) as [E|E]; [|now apply Bq]. rewrite E in Hx. now apply Bp. }
  exists r, u, w. split; [exact Er|]. split; [exact Eu|]. split; [exact Ew|]. rewrite Ew'. f_equal.
  apply graph_ext; auto; [congruence|congruence|]. intros x y.
  destruct (pmap_bijective r (normal_disj r Hr)) as [_ S]. destruct (S x) as [a <-]. destruct (S y) as [b <-].
  now rewrite Rw', !Mr, Rw, Ru.
Qed.
