(** Printed cell complexes. *)
From Coq Require Import String Ascii List ZArith Bool Lia Permutation Sorted.
From Verif Require Import PidModel MatModel UtilModel GraphModel CubeModel CubeSpec CubeProofs CubeProofs2 MorseCplxModel ShowModel ShowModel2 ShowSpec ShowSpec2 ShowProofs ShowProofs2 ShowProofs3.
Import ListNotations.
Open Scope nat_scope.
Open Scope list_scope.

Lemma last_index (c : cplx) : c_final c <> [] -> exists z, In z (c_final c) /\ nth_error (c_final c) (List.length (c_final c) - 1) = Some z.
Proof. intros NE. destruct (nth_error (c_final c) (List.length (c_final c) - 1)) as [z|] eqn:E; [exists z; split; [now apply nth_error_In in E|reflexivity]|]. apply nth_error_None in E. destruct (c_final c); [now destruct NE|cbn in E; lia]. Qed.
Lemma move_newline (ls : list text) : concat (map (fun l => ["010"%char] ++ l) ls) ++ ["010"%char] = ["010"%char] ++ unlines ls.
Proof. unfold unlines. induction ls as [|l ls IH]; [reflexivity|]. cbn [map concat]. rewrite <- !app_assoc, IH. reflexivity. Qed.
Section G.
  Variable c : cplx.
  Variable cell : nat -> list factor.
  Hypothesis HD : forall i, In i (c_final c) -> dim_of c i = Some (dimension (cell i)).
  Hypothesis INJ : forall i j, In i (c_final c) -> In j (c_final c) -> cell i = cell j -> i = j.
  Definition cells_at (k : nat) : list (list factor) := map cell (filter (fun i => dimension (cell i) =? k) (c_final c)).
  Lemma show_lines (sh : nat -> option text) z k : In z (c_final c) -> nth_error (c_final c) (List.length (c_final c) - 1) = Some z -> (forall i, In i (c_final c) -> sh i = show_cell c i (cell i)) ->
    (do is <- filterM (fun i => do d <- dim_of c i; Some (d =? k)) (c_final c); omapM sh is) = Some (map (fun l => ["010"%char] ++ cell_line (cell z) l) (cells_at k)).
  Proof.
    intros Hz Ez Hs. rewrite (filterM_filter _ (fun i => dimension (cell i) =? k)) by (intros i Hi; now rewrite (HD i Hi)). cbn [obind].
    rewrite (omapM_ok _ (fun i => ["010"%char] ++ cell_line (cell z) (cell i))).
    - unfold cells_at. now rewrite map_map.
    - intros i Hi. apply filter_In in Hi as [Hi _]. rewrite (Hs i Hi). unfold show_cell, cell_line. rewrite Ez. cbn [obind].
      destruct (Nat.eqb_spec i z) as [->|N]; destruct (list_eq_dec f_dec (cell _) (cell z)) as [K|K]; try reflexivity; [now destruct K|]. exfalso. apply N, INJ; assumption.
  Qed.
End G.

Definition block (head : nat -> text) (z : list factor) (kl : nat * list (list factor)) : text := unlines ((show_nat (fst kl) ++ head (fst kl)) :: map (cell_line z) (snd kl)).
Definition blk (hb : nat -> text) (kl : nat * list (list factor * bool)) : text :=
  show_nat (fst kl) ++ hb (List.length (snd kl)) ++ ["010"%char] ++ concat (map (fun lb : list factor * bool => ["009"%char] ++ lit "{" ++ concat (map (fun f => show_factor f ++ lit ", ") (fst lb)) ++ lit "}" ++ (if snd lb then [] else lit ", ") ++ ["010"%char]) (snd kl)).
Lemma factors_split l : forall m r s, concat (map (fun f => show_factor f ++ lit ", ") l) ++ "}"%char :: r = concat (map (fun f => show_factor f ++ lit ", ") m) ++ "}"%char :: s -> l = m /\ r = s.
Proof.
  assert (H0 : forall f t u, show_factor f ++ t <> "}"%char :: u).
  { intros [x y|x] t u K; cbn -[show_nat] in K; [discriminate K|]. destruct (show_nat_head x) as (d & q & E & D). rewrite E in K. injection K as K _. subst d. discriminate D. }
  induction l as [|f l IH]; intros [|g m] r s H; cbn [map concat app] in H.
  - injection H as ->. auto.
  - rewrite <- !app_assoc in H. symmetry in H. now apply H0 in H.
  - rewrite <- !app_assoc in H. now apply H0 in H.
  - rewrite <- !app_assoc in H. apply factor_split in H; [|st|st]. destruct H as [-> H]. injection H as H. apply IH in H. destruct H as [-> ->]. auto.
Qed.
Definition cl (lb : list factor * bool) : text := ["009"%char] ++ lit "{" ++ concat (map (fun f => show_factor f ++ lit ", ") (fst lb)) ++ lit "}" ++ (if snd lb then [] else lit ", ") ++ ["010"%char].
Lemma cl_split a b r s : cl a ++ r = cl b ++ s -> a = b /\ r = s.
Proof.
  destruct a as [l x], b as [m y]. unfold cl. cbn [fst snd]. rewrite <- !app_assoc. intros H. cbn -[show_factor] in H. injection H as H. apply factors_split in H. destruct H as [-> H].
  destruct x, y; cbn in H; try discriminate H; injection H as H; subst; auto.
Qed.
Lemma cls_split l m r s : stops digit r -> stops digit s -> concat (map cl l) ++ r = concat (map cl m) ++ s -> l = m /\ r = s.
Proof.
  assert (H0 : forall a t u, stops digit u -> cl a ++ t <> u) by (intros a t [|d u] S K; [discriminate K|]; cbn in K; injection K as K _; subst d; discriminate S).
  revert m. induction l as [|a l IH]; intros [|b m] Sr Ss H; cbn [map concat app] in H.
  - auto.
  - rewrite <- !app_assoc in H. symmetry in H. now apply H0 in H.
  - rewrite <- !app_assoc in H. now apply H0 in H.
  - rewrite <- !app_assoc in H. apply cl_split in H. destruct H as [-> H]. apply IH in H; try assumption. destruct H as [-> ->]. auto.
Qed.
Section Blocks.
  Variable hb : nat -> text.
  Hypothesis Hhb : forall n m r s, hb n ++ "010"%char :: r = hb m ++ "010"%char :: s -> r = s.
  Hypothesis Hst : forall n, exists d t, hb n = d :: t /\ ndigit d = true.
  Lemma blk_split a b r s : stops digit r -> stops digit s -> blk hb a ++ r = blk hb b ++ s -> a = b /\ r = s.
  Proof.
    destruct a as [k l], b as [j m]. unfold blk. cbn [fst snd]. rewrite <- !app_assoc. intros Sr Ss H. apply show_nat_split in H.
    - destruct H as [-> H]. apply Hhb in H. change (concat (map cl l) ++ r = concat (map cl m) ++ s) in H. apply cls_split in H; try assumption. destruct H as [-> ->]. auto.
    - destruct (Hst (List.length l)) as (d & t & E & D). rewrite E. exact D.
    - destruct (Hst (List.length m)) as (d & t & E & D). rewrite E. exact D.
  Qed.
  Lemma blks_inj l m : concat (map (blk hb) l) = concat (map (blk hb) m) -> l = m.
  Proof.
    assert (S0 : forall l, stops digit (concat (map (blk hb) l))).
    { intros [|a l']; [exact I|]. cbn [map concat]. unfold blk. destruct (show_nat_head (fst a)) as (d & q & E & D). rewrite E. exact D. }
    assert (N0 : forall a t, blk hb a ++ t <> []) by (intros a t K; unfold blk in K; destruct (show_nat_head (fst a)) as (d & q & E & D); rewrite E in K; discriminate K).
    revert m. induction l as [|a l IH]; intros [|b m] H; cbn [map concat] in H; [reflexivity|symmetry in H; now apply N0 in H|now apply N0 in H|].
    apply blk_split in H; [|apply S0|apply S0]. destruct H as [-> H]. f_equal. now apply IH.
  Qed.
End Blocks.
Definition eqz (z l : list factor) : bool := if list_eq_dec f_dec l z then true else false.
Lemma text_blks hb (cells : nat -> list (list factor)) z d : complex_text (fun k => hb (List.length (cells k))) z cells d = concat (map (blk hb) (map (fun k => (k, map (fun l => (l, eqz z l)) (cells k))) (seq 0 (S d)))).
Proof.
  unfold complex_text. rewrite map_map. f_equal. apply map_ext. intros k. unfold blk, unlines. cbn [fst snd map concat]. rewrite map_length, <- !app_assoc. do 3 f_equal. rewrite !map_map. f_equal. apply map_ext. intros l. unfold cell_line, eqz. cbn [fst snd].
  destruct (list_eq_dec f_dec l z); rewrite <- !app_assoc; reflexivity.
Qed.
Lemma text_inj hb cells z d cells' z' d' : (forall n m r s, hb n ++ "010"%char :: r = hb m ++ "010"%char :: s -> r = s) -> (forall n, exists d t, hb n = d :: t /\ ndigit d = true) ->
  complex_text (fun k => hb (List.length (cells k))) z cells d = complex_text (fun k => hb (List.length (cells' k))) z' cells' d' -> d = d' /\ forall k, k <= d -> cells k = cells' k.
Proof.
  intros H1 H2 H. rewrite !text_blks in H. apply blks_inj in H; auto. pose proof (f_equal (@List.length _) H) as L. rewrite !map_length, !seq_length in L. injection L as L. split; [exact L|]. subst d'. intros k Hk.
  pose proof (f_equal (fun x => nth_error x k) H) as E. cbn beta in E. rewrite !nth_error_map, (nth_error_nth' _ 0) in E by (rewrite seq_length; lia). rewrite seq_nth in E by lia. cbn [option_map Nat.add] in E. injection E as E. apply (f_equal (map fst)) in E. rewrite !map_map in E. cbn [fst] in E. now rewrite !map_id in E.
Qed.
