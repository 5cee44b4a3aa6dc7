(** Proofs about modules: the isomorphism test decides isomorphism of the described groups. *)
From Coq Require Import List Arith ZArith Bool Sorted Permutation Lia Znumtheory.
From Verif Require Import PidModel LinModel LinSpec.
Import ListNotations.
Open Scope Z_scope.

(** ** Groups as integer lists *)
Lemma gadd_length x y : length (gadd x y) = Nat.min (length x) (length y).
Proof. revert y; induction x as [|a x IH]; intros [|b y]; cbn; auto. Qed.
Lemma gadd_nth x y i : length x = length y -> nth i (gadd x y) 0 = nth i x 0 + nth i y 0.
Proof. revert y i; induction x as [|a x IH]; intros [|b y] [|i]; cbn; try discriminate; auto. Qed.
Lemma geq_refl ms x : gelt ms x -> geq ms x x.
Proof. intros H. repeat split; auto. intros. rewrite Z.sub_diag. apply Z.divide_0_r. Qed.
Lemma geq_sym ms x y : geq ms x y -> geq ms y x.
Proof.
  intros (H1 & H2 & H). repeat split; auto. intros i Hi. replace (nth i y 0 - nth i x 0) with (- (nth i x 0 - nth i y 0)) by lia.
  apply Z.divide_opp_r. auto.
Qed.
Lemma geq_trans ms x y z : geq ms x y -> geq ms y z -> geq ms x z.
Proof.
  intros (H1 & H2 & H) (H3 & H4 & G). repeat split; auto. intros i Hi.
  replace (nth i x 0 - nth i z 0) with ((nth i x 0 - nth i y 0) + (nth i y 0 - nth i z 0)) by lia.
  apply Z.divide_add_r; auto.
Qed.
Lemma geq_gadd ms x y x' y' : geq ms x x' -> geq ms y y' -> geq ms (gadd x y) (gadd x' y').
Proof.
  intros (H1 & H2 & H) (H3 & H4 & G).
  assert (length (gadd x y) = length ms) by (rewrite gadd_length; lia).
  assert (length (gadd x' y') = length ms) by (rewrite gadd_length; lia).
  repeat split; auto. intros i Hi. rewrite !gadd_nth by congruence.
  replace (nth i x 0 + nth i y 0 - (nth i x' 0 + nth i y' 0)) with ((nth i x 0 - nth i x' 0) + (nth i y 0 - nth i y' 0)) by lia.
  apply Z.divide_add_r; auto.
Qed.
Lemma gelt_gadd ms x y : gelt ms x -> gelt ms y -> gelt ms (gadd x y).
Proof. unfold gelt. rewrite gadd_length. lia. Qed.

Lemma ghom_comp ms ns ks f g : ghom ms ns f -> ghom ns ks g -> ghom ms ks (fun x => g (f x)).
Proof.
  intros (F1 & F2 & F3) (G1 & G2 & G3). split; [|split]; auto.
  intros x y Hx Hy. eapply geq_trans; [apply G2, F3; assumption|]. apply G3; apply F1; assumption.
Qed.
Lemma group_iso_refl ms : group_iso ms ms.
Proof.
  exists (fun x => x), (fun x => x). assert (ghom ms ms (fun x => x)).
  { split; [auto|split; [auto|]]. intros. apply geq_refl, gelt_gadd; assumption. }
  split; [exact H|]. split; [exact H|]. split; intros; now apply geq_refl.
Qed.
Lemma group_iso_sym ms ns : group_iso ms ns -> group_iso ns ms.
Proof. intros (f & g & Hf & Hg & H1 & H2). exists g, f. auto. Qed.
Lemma group_iso_trans ms ns ks : group_iso ms ns -> group_iso ns ks -> group_iso ms ks.
Proof.
  intros (f & g & Hf & Hg & H1 & H2) (f' & g' & Hf' & Hg' & H1' & H2').
  exists (fun x => f' (f x)), (fun x => g (g' x)).
  split; [eapply ghom_comp; eassumption|]. split; [eapply ghom_comp; eassumption|]. split.
  - intros x Hx. eapply geq_trans; [|apply H1, Hx]. apply Hg. apply H1'. apply Hf, Hx.
  - intros x Hx. eapply geq_trans; [|apply H2', Hx]. apply Hf'. apply H2. apply Hg', Hx.
Qed.

(** ** Quotients by n and counting *)
Definition quot_mods (n : Z) (ms : list Z) := map (Z.gcd n) ms.
Fixpoint nmul (k : nat) (x : list Z) : list Z :=
  match k with O => map (fun _ => 0) x | S k' => gadd x (nmul k' x) end.
Lemma nmul_length k x : length (nmul k x) = length x.
Proof. induction k; cbn; [apply map_length|]. rewrite gadd_length. lia. Qed.
Lemma nmul_nth k x i : nth i (nmul k x) 0 = Z.of_nat k * nth i x 0.
Proof.
  induction k; cbn [nmul].
  - cbn. revert i; induction x as [|a x IH]; intros [|i]; cbn; auto.
  - rewrite gadd_nth by (now rewrite nmul_length). rewrite IHk. lia.
Qed.
Lemma hom_zero ms ns f x : ghom ms ns f -> gelt ms x -> geq ns (f (map (fun _ => 0) x)) (map (fun _ => 0) (f x)).
Proof.
  intros (F1 & F2 & F3) Hx. set (z := map (fun _ => 0) x).
  assert (Hz : gelt ms z) by (unfold gelt, z; now rewrite map_length).
  assert (H : geq ns (f z) (gadd (f z) (f z))).
  { eapply geq_trans; [|apply F3; assumption]. apply F2.
    repeat split; try (unfold gelt in *; rewrite ?gadd_length; lia).
    intros i Hi. rewrite gadd_nth by reflexivity. unfold z.
    replace (nth i (map (fun _ => 0) x) 0) with 0. apply Z.divide_0_r.
    symmetry. apply (nmul_nth 0 x i). }
  destruct H as (H1 & H2 & H). repeat split; [assumption|rewrite map_length; now apply F1|].
  intros i Hi. specialize (H i Hi). rewrite gadd_nth in H by reflexivity.
  replace (nth i (map (fun _ : Z => 0) (f x)) 0) with 0 by (symmetry; apply (nmul_nth 0 (f x) i)).
  replace (nth i (f z) 0 - 0) with (- (nth i (f z) 0 - (nth i (f z) 0 + nth i (f z) 0))) by lia. now apply Z.divide_opp_r.
Qed.
Lemma hom_nmul ms ns f k x : ghom ms ns f -> gelt ms x -> geq ns (f (nmul k x)) (nmul k (f x)).
Proof.
  intros Hf Hx. induction k; cbn [nmul].
  - eapply hom_zero; eassumption.
  - eapply geq_trans; [apply Hf|]; [assumption|unfold gelt; rewrite nmul_length; exact Hx|].
    apply geq_gadd; [apply geq_refl, Hf, Hx|assumption].
Qed.

(** congruence mod [gcd n m] componentwise is congruence up to an [n]-fold *)
Lemma quot_char n ms x y : gelt ms x -> gelt ms y ->
  (geq (quot_mods (Z.of_nat n) ms) x y <-> exists z, gelt ms z /\ geq ms x (gadd y (nmul n z))).
Proof.
  unfold gelt. intros Hx Hy. split.
  - intros (_ & _ & H). unfold quot_mods in H. rewrite map_length in H.
    revert x y Hx Hy H. induction ms as [|m ms IH]; intros [|a x] [|b y] Hx Hy H; try discriminate.
    + exists []. split; [reflexivity|]. split; [reflexivity|]. split; [reflexivity|]. cbn; intros; lia.
    + destruct (IH x y) as (z & Hz & Hg); try (cbn in *; lia).
      { intros i Hi. apply (H (S i)). cbn; lia. }
      specialize (H 0%nat ltac:(cbn; lia)). cbn [nth map] in H. destruct H as [q Hq].
      destruct (Z.gcd_bezout (Z.of_nat n) m (Z.gcd (Z.of_nat n) m) eq_refl) as (u & v & Huv).
      exists (q * u :: z). split; [cbn; lia|]. destruct Hg as (G1 & G2 & G).
      assert (Hlen : length (nmul n (q * u :: z)) = S (length ms)) by (rewrite nmul_length; cbn; lia).
      split; [cbn; lia|]. split; [rewrite gadd_length, Hlen; cbn in *; lia|].
      intros [|i] Hi.
      * rewrite gadd_nth by (rewrite Hlen; cbn in *; lia). rewrite nmul_nth. cbn [nth].
        exists (q * v). nia.
      * rewrite gadd_nth by (rewrite Hlen; cbn in *; lia). rewrite nmul_nth. cbn [nth].
        specialize (G i ltac:(cbn in Hi; lia)). rewrite gadd_nth, nmul_nth in G; [exact G|]. rewrite nmul_length. cbn in *; lia.
  - intros (z & Hz & (_ & H2 & H)). unfold quot_mods. split; [now rewrite map_length|]. split; [now rewrite map_length|].
    intros i Hi. rewrite map_length in Hi. specialize (H i Hi). rewrite gadd_nth, nmul_nth in H by (rewrite nmul_length; lia).
    rewrite (nth_indep _ 0 (Z.gcd (Z.of_nat n) 0)) by (now rewrite map_length). rewrite map_nth.
    replace (nth i x 0 - nth i y 0) with ((nth i x 0 - (nth i y 0 + Z.of_nat n * nth i z 0)) + Z.of_nat n * nth i z 0) by lia.
    apply Z.divide_add_r.
    + eapply Z.divide_trans; [apply Z.gcd_divide_r|exact H].
    + apply Z.divide_mul_l, Z.gcd_divide_l.
Qed.

Lemma hom_quot ms ns f n x y : ghom ms ns f -> geq (quot_mods (Z.of_nat n) ms) x y -> geq (quot_mods (Z.of_nat n) ns) (f x) (f y).
Proof.
  intros Hf H. assert (Hx : gelt ms x) by (destruct H as (H & _); unfold quot_mods in H; rewrite map_length in H; exact H).
  assert (Hy : gelt ms y) by (destruct H as (_ & H & _); unfold quot_mods in H; rewrite map_length in H; exact H).
  apply (quot_char n ms x y Hx Hy) in H. destruct H as (z & Hz & H).
  apply quot_char; [apply Hf, Hx|apply Hf, Hy|]. exists (f z). split; [apply Hf, Hz|].
  assert (Hk : gelt ms (nmul n z)) by (unfold gelt; now rewrite nmul_length).
  eapply geq_trans; [apply Hf, H|]. eapply geq_trans; [apply Hf; assumption|].
  apply geq_gadd; [apply geq_refl, Hf, Hy|]. eapply hom_nmul; eassumption.
Qed.

Definition zs (d : Z) : list Z := map Z.of_nat (seq 0 (Z.to_nat d)).
Fixpoint reps (ds : list Z) : list (list Z) :=
  match ds with [] => [[]] | d :: t => flat_map (fun a => map (cons a) (reps t)) (zs d) end.
Fixpoint prodl (l : list Z) : Z := match l with [] => 1 | a :: t => a * prodl t end.
Lemma zs_in d a : In a (zs d) <-> 0 <= a < d.
Proof.
  unfold zs. rewrite in_map_iff. split.
  - intros (k & <- & H). apply in_seq in H. lia.
  - intros H. exists (Z.to_nat a). split; [lia|]. apply in_seq. lia.
Qed.
Lemma reps_in ds x : In x (reps ds) <-> Forall2 (fun d a => 0 <= a < d) ds x.
Proof.
  revert x; induction ds as [|d ds IH]; intros x; cbn.
  - split; [intros [<-|[]]; constructor|]. intros H; inversion H; auto.
  - rewrite in_flat_map. split.
    + intros (a & Ha & H). apply in_map_iff in H. destruct H as (t & <- & H). constructor; [now apply zs_in|now apply IH].
    + intros H; inversion H as [|? a ? t Ha Ht]; subst. exists a. split; [now apply zs_in|]. apply in_map. now apply IH.
Qed.
Lemma length_flat_const {A} (a : list A) (g : A -> list (list Z)) k : (forall x, length (g x) = k) ->
  length (flat_map g a) = (length a * k)%nat.
Proof. intros H. induction a; cbn; [reflexivity|]. rewrite app_length, H, IHa. reflexivity. Qed.
Lemma reps_length ds : Forall (fun d => 0 < d) ds -> Z.of_nat (length (reps ds)) = prodl ds.
Proof.
  induction 1 as [|d ds Hd HF IH]; [reflexivity|]. cbn [reps prodl].
  rewrite (length_flat_const _ _ (length (reps ds))) by (intros; apply map_length).
  unfold zs. rewrite map_length, seq_length. rewrite Nat2Z.inj_mul, IH. lia.
Qed.
Lemma nodup_app_disj {A} (a b : list A) : NoDup a -> NoDup b -> (forall x, In x a -> ~ In x b) -> NoDup (a ++ b).
Proof.
  induction 1 as [|x a Hx Ha IH]; intros Hb Hd; [exact Hb|]. cbn. constructor.
  - rewrite in_app_iff. intros [H|H]; [auto|]. apply (Hd x); [now left|exact H].
  - apply IH; [exact Hb|]. intros y Hy. apply Hd. now right.
Qed.
Lemma reps_nodup ds : NoDup (reps ds).
Proof.
  induction ds as [|d ds IH]; cbn; [repeat constructor; auto|].
  assert (Hz : NoDup (zs d)).
  { unfold zs. apply FinFun.Injective_map_NoDup; [|apply seq_NoDup]. intros a b; lia. }
  revert Hz. generalize (zs d). induction l as [|a l IHl]; intros Hz; cbn; [constructor|].
  inversion Hz; subst. apply nodup_app_disj.
  - apply FinFun.Injective_map_NoDup; [|exact IH]. intros x y; congruence.
  - auto.
  - intros x Hx Hy. apply in_map_iff in Hx. destruct Hx as (t & <- & _). apply in_flat_map in Hy.
    destruct Hy as (b & Hb & Hy). apply in_map_iff in Hy. destruct Hy as (t' & E & _). congruence.
Qed.
Fixpoint zmods (ds x : list Z) : list Z :=
  match ds, x with d :: ds', a :: x' => a mod d :: zmods ds' x' | _, _ => [] end.
Lemma zmods_reps ds x : Forall (fun d => 0 < d) ds -> length x = length ds -> In (zmods ds x) (reps ds).
Proof.
  intros HF; revert x; induction HF as [|d ds Hd HF IH]; intros [|a x] H; try discriminate; [now left|].
  apply reps_in. cbn. constructor; [apply Z.mod_pos_bound; lia|]. apply reps_in, IH. cbn in H; lia.
Qed.
Lemma zmods_eq ds x y : Forall (fun d => 0 < d) ds -> length x = length ds -> length y = length ds ->
  (zmods ds x = zmods ds y <-> geq ds x y).
Proof.
  intros HF; revert x y; induction HF as [|d ds Hd HF IH]; intros [|a x] [|b y] Hx Hy; try discriminate.
  - cbn. split; [intros _; repeat split; auto; cbn; intros; lia|auto].
  - cbn [zmods]. specialize (IH x y ltac:(cbn in *; lia) ltac:(cbn in *; lia)). split.
    + intros [= E1 E2]. apply IH in E2. destruct E2 as (_ & _ & E2). repeat split; auto.
      intros [|i] Hi; cbn; [|apply E2; cbn in Hi; lia].
      apply Z.mod_divide; [lia|]. rewrite Zminus_mod, E1, Z.sub_diag. apply Z.mod_0_l. lia.
    + intros (_ & _ & H). f_equal.
      * specialize (H 0%nat ltac:(cbn; lia)). cbn in H. destruct H as [q Hq]. replace a with (b + q * d) by lia. now rewrite Z_mod_plus_full.
      * apply IH. repeat split; try (cbn in *; lia). intros i Hi. apply (H (S i)). cbn; lia.
Qed.
Lemma geq_reps ds x y : Forall (fun d => 0 < d) ds -> In x (reps ds) -> In y (reps ds) -> geq ds x y -> x = y.
Proof.
  intros HF Hx Hy (_ & _ & H). apply reps_in in Hx. apply reps_in in Hy. clear HF.
  revert y Hy H. induction Hx as [|d a ds x Ha Hx IH]; intros y Hy H; inversion Hy as [|? b ? y' Hb Hy']; subst; [reflexivity|].
  f_equal.
  - specialize (H 0%nat ltac:(cbn; lia)). cbn in H. destruct H as [q Hq]. assert (q = 0) by nia. subst. lia.
  - apply IH; [assumption|]. intros i Hi. apply (H (S i)). cbn; lia.
Qed.

Lemma quot_pos n ms : 0 < n -> Forall (fun d => 0 < d) (quot_mods n ms).
Proof.
  intros Hn. unfold quot_mods. apply Forall_map, Forall_forall. intros m _.
  pose proof (Z.gcd_nonneg n m). assert (Z.gcd n m <> 0); [|lia]. intros E. apply Z.gcd_eq_0_l in E. lia.
Qed.
Lemma rep_len ds x : In x (reps ds) -> length x = length ds.
Proof. intros H. apply reps_in in H. induction H; cbn; lia. Qed.

Lemma iso_count_le ms ns n : (0 < n)%nat -> group_iso ms ns ->
  prodl (quot_mods (Z.of_nat n) ms) <= prodl (quot_mods (Z.of_nat n) ns).
Proof.
  intros Hn (f & g & Hf & Hg & H1 & H2). set (N := Z.of_nat n).
  assert (P1 := quot_pos N ms ltac:(lia)). assert (P2 := quot_pos N ns ltac:(lia)).
  rewrite <- !reps_length by assumption. apply inj_le.
  set (h := fun x => zmods (quot_mods N ns) (f x)).
  rewrite <- (map_length h (reps (quot_mods N ms))). apply NoDup_incl_length.
  - assert (Hinj : forall x y, In x (reps (quot_mods N ms)) -> In y (reps (quot_mods N ms)) -> h x = h y -> x = y).
    { intros x y Hx Hy E. assert (Lx := rep_len _ _ Hx). assert (Ly := rep_len _ _ Hy).
      unfold quot_mods in Lx, Ly. rewrite map_length in Lx, Ly.
      assert (Q := Hx). eapply geq_reps; [exact P1|exact Hx|exact Hy|].
      assert (E' : geq (quot_mods N ns) (f x) (f y)).
      { apply zmods_eq; [exact P2| | |exact E]; unfold quot_mods; rewrite map_length; apply Hf; assumption. }
      apply (hom_quot ns ms g n _ _ Hg) in E'. fold N in E'.
      assert (W : forall a, gelt ms a -> geq (quot_mods N ms) (g (f a)) a).
      { intros a Ha. apply quot_char; [apply Hg, Hf, Ha|exact Ha|]. exists (map (fun _ => 0) a).
        assert (Hz : gelt ms (map (fun _ => 0) a)) by (unfold gelt; now rewrite map_length).
        split; [exact Hz|]. eapply geq_trans; [apply H1, Ha|].
        repeat split; [exact Ha|rewrite gadd_length, nmul_length, map_length; unfold gelt in Ha; lia|].
        intros i Hi. rewrite gadd_nth by (now rewrite nmul_length, map_length). rewrite nmul_nth.
        replace (nth i (map (fun _ => 0) a) 0) with 0 by (symmetry; apply (nmul_nth 0 a i)).
        replace (nth i a 0 - _) with 0 by lia. apply Z.divide_0_r. }
      eapply geq_trans; [apply geq_sym, W, Lx|]. eapply geq_trans; [exact E'|apply W, Ly]. }
    assert (Hnd := reps_nodup (quot_mods N ms)). revert Hinj Hnd. generalize (reps (quot_mods N ms)). clear.
    intros l Hinj Hnd. induction Hnd as [|x l Hx Hnd IH]; cbn; [constructor|]. constructor.
    + intros Hi. apply in_map_iff in Hi. destruct Hi as (y & E & Hy). apply Hinj in E; [congruence|now right|now left].
    + apply IH. intros a b Ha Hb. apply Hinj; now right.
  - intros y Hy. apply in_map_iff in Hy. destruct Hy as (x & <- & Hx). apply zmods_reps; [exact P2|].
    unfold quot_mods. rewrite map_length. apply Hf. apply rep_len in Hx. unfold quot_mods in Hx. now rewrite map_length in Hx.
Qed.
Lemma iso_count ms ns n : 0 < n -> group_iso ms ns -> prodl (quot_mods n ms) = prodl (quot_mods n ns).
Proof.
  intros Hn H. rewrite <- (Z2Nat.id n) by lia. assert (0 < Z.to_nat n)%nat by lia.
  apply Z.le_antisymm; apply iso_count_le; auto. now apply group_iso_sym.
Qed.

(** ** Arithmetic: the counts determine the invariant factors *)
Lemma prodl_app a b : prodl (a ++ b) = prodl a * prodl b.
Proof. induction a as [|x a IH]; cbn [app prodl]; [lia|]. rewrite IH. ring. Qed.
Lemma prodl_pos l : Forall (fun d => 0 < d) l -> 0 < prodl l.
Proof. induction 1; cbn; [lia|nia]. Qed.
Lemma prodl_div d l : In d l -> (d | prodl l).
Proof. induction l; cbn; [intros []|]. intros [->|H]; [apply Z.divide_factor_l|]. apply Z.divide_mul_r; auto. Qed.
Lemma quot_multiple n l : 0 < n -> Forall (fun d => 0 < d /\ (d | n)) l -> quot_mods n l = l.
Proof.
  intros Hn HF. induction HF as [|d l [H1 H2] HF IH]; cbn; [reflexivity|]. f_equal; [|exact IH].
  rewrite Z.gcd_comm. apply Z.divide_gcd_iff; [lia|exact H2].
Qed.
Lemma quot_zeros n r : 0 < n -> prodl (quot_mods n (repeat 0 r)) = n ^ Z.of_nat r.
Proof.
  intros Hn. unfold quot_mods. induction r; [reflexivity|]. cbn [repeat map prodl]. rewrite IHr, Z.gcd_0_r, Z.abs_eq by lia.
  rewrite Nat2Z.inj_succ, Z.pow_succ_r by lia. reflexivity.
Qed.
Lemma prodl_le a b : Forall2 (fun x y => 0 < x <= y) a b -> prodl a <= prodl b /\ (prodl a = prodl b -> a = b).
Proof.
  induction 1 as [|x y a b Hxy HF [IH1 IH2]]; cbn; [split; [lia|auto]|].
  assert (0 < prodl a). { clear - HF. induction HF; cbn; [lia|nia]. }
  split; [nia|]. intros E. assert (x = y) by nia. subst. f_equal. apply IH2. nia.
Qed.
Definition down (l : list Z) := StronglySorted (fun a b => (b | a)) l.
Lemma down_head_div d l : down (d :: l) -> Forall (fun e => (e | d)) (d :: l).
Proof. intros H. inversion H; subst. constructor; [apply Z.divide_refl|assumption]. Qed.
Lemma down_unique ds : forall es, Forall (fun d => 1 < d) ds -> Forall (fun d => 1 < d) es -> down ds -> down es ->
  (forall n, 0 < n -> prodl (quot_mods n ds) = prodl (quot_mods n es)) -> ds = es.
Proof.
  assert (Hone : forall e es, Forall (fun d => 1 < d) (e :: es) -> 1 < prodl (quot_mods e (e :: es))).
  { intros e es HF. inversion HF; subst. cbn [quot_mods map prodl]. rewrite Z.gcd_diag, Z.abs_eq by lia.
    assert (0 < prodl (map (Z.gcd e) es)) by (apply prodl_pos, (quot_pos e es); lia). nia. }
  induction ds as [|d ds IH]; intros [|e es] F1 F2 D1 D2 H; [reflexivity| | |].
  - exfalso. pose proof (Hone e es F2). inversion F2; subst. specialize (H e ltac:(lia)). cbn [quot_mods map prodl] in *. lia.
  - exfalso. pose proof (Hone d ds F1). inversion F1; subst. specialize (H d ltac:(lia)). cbn [quot_mods map prodl] in *. lia.
  - assert (F1' := F1). assert (F2' := F2). inversion F1 as [|? ? Hd F1t]; inversion F2 as [|? ? He F2t]; subst.
    assert (Hp : prodl (d :: ds) = prodl (e :: es)).
    { specialize (H (d * e) ltac:(nia)). rewrite !quot_multiple in H; [exact H|nia| |nia|].
      - apply down_head_div in D2. rewrite Forall_forall in *. intros x Hx. split; [specialize (F2' x Hx); lia|].
        apply Z.divide_mul_r. auto.
      - apply down_head_div in D1. rewrite Forall_forall in *. intros x Hx. split; [specialize (F1' x Hx); lia|].
        apply Z.divide_mul_l. auto. }
    assert (Hdiv : forall d ds e es, 1 < d -> Forall (fun d => 1 < d) (d :: ds) -> Forall (fun d => 1 < d) (e :: es) -> down (d :: ds) ->
       prodl (d :: ds) = prodl (e :: es) -> prodl (quot_mods d (d :: ds)) = prodl (quot_mods d (e :: es)) -> (e | d)).
    { clear. intros d ds e es Hd F1 F2 D Hp H.
      rewrite (quot_multiple d (d :: ds)) in H; [|lia|].
      2:{ apply down_head_div in D. rewrite Forall_forall in *. intros x Hx. split; [specialize (F1 x Hx); lia|auto]. }
      rewrite Hp in H. symmetry in H. apply prodl_le in H.
      - cbn in H. injection H as H _. rewrite <- H. apply Z.gcd_divide_l.
      - unfold quot_mods. clear - Hd F2. induction F2 as [|x l Hx F2 IH]; cbn; constructor; [|exact IH].
        assert (Hg := Z.gcd_nonneg d x). assert (Z.gcd d x <> 0) by (intros E; apply Z.gcd_eq_0_l in E; lia).
        assert (Z.gcd d x <= x) by (apply Z.divide_pos_le; [lia|apply Z.gcd_divide_r]). lia. }
    assert (d = e).
    { apply Z.divide_antisym_nonneg; [lia|lia| |].
      - apply (Hdiv e es d ds); auto. symmetry. apply H. lia.
      - apply (Hdiv d ds e es); auto. apply H. lia. }
    subst e. f_equal. apply IH; auto.
    + now inversion D1.
    + now inversion D2.
    + intros n Hn. specialize (H n Hn). cbn [quot_mods map prodl] in H.
      assert (Z.gcd n d <> 0) by (intros E; apply Z.gcd_eq_0_l in E; lia). unfold quot_mods. nia.
Qed.

Definition expand (ds : list (Z * nat)) : list Z := flat_map (fun d => repeat (fst d) (snd d)) ds.
Lemma rev_sorted (R : Z -> Z -> Prop) l : StronglySorted R l -> StronglySorted (fun a b => R b a) (rev l).
Proof.
  induction 1 as [|x l Hs IH HF]; cbn; [constructor|].
  assert (G : forall a, StronglySorted (fun a b => R b a) a -> Forall (fun y => R x y) a -> StronglySorted (fun a b => R b a) (a ++ [x])).
  { clear. induction a as [|y a IH]; intros H1 H2; cbn; [repeat constructor|]. inversion H1; inversion H2; subst.
    constructor; [now apply IH|]. apply Forall_app. split; [assumption|]. constructor; auto. }
  apply G; [exact IH|]. apply Forall_rev. exact HF.
Qed.
Lemma expand_up ds : Forall (fun d => 1 < fst d /\ (0 < snd d)%nat) ds -> StronglySorted (fun a b => (fst a | fst b) /\ fst a < fst b) ds ->
  StronglySorted Z.divide (expand ds).
Proof.
  intros _. induction 1 as [|[d m] ds Hs IH HF]; cbn; [constructor|]. fold (expand ds).
  assert (Hall : Forall (Z.divide d) (expand ds)).
  { unfold expand. apply Forall_flat_map. eapply Forall_impl; [|exact HF]. intros [e k] [H _]. cbn in *.
    apply Forall_forall. intros x Hx. apply repeat_spec in Hx. now subst. }
  clear HF. induction m as [|m IHm]; cbn; [exact IH|]. constructor; [exact IHm|]. apply Forall_app. split; [|exact Hall].
  apply Forall_forall. intros x Hx. apply repeat_spec in Hx. subst. apply Z.divide_refl.
Qed.
Lemma expand_gt1 ds : Forall (fun d => 1 < fst d /\ (0 < snd d)%nat) ds -> Forall (fun d => 1 < d) (expand ds).
Proof.
  intros H. unfold expand. apply Forall_flat_map. eapply Forall_impl; [|exact H]. intros [d m] [H1 _]. cbn in *.
  apply Forall_forall. intros x Hx. apply repeat_spec in Hx. now subst.
Qed.
Lemma expand_inj ds : forall es, invariant_factors ds -> invariant_factors es -> expand ds = expand es -> ds = es.
Proof.
  assert (Hhead : forall d m ds k es, (0 < k)%nat -> StronglySorted (fun a b => (fst a | fst b) /\ fst a < fst b) ((d, m) :: ds) ->
            expand ds <> repeat d k ++ es).
  { clear ds; intros d m ds k es Hk Hs E. inversion Hs as [|? ? _ HF]; subst. destruct k; [lia|]. cbn in E.
    assert (Hi : In d (expand ds)) by (rewrite E; now left). unfold expand in Hi. apply in_flat_map in Hi.
    destruct Hi as ([e j] & Hi & Hr). cbn in Hr. apply repeat_spec in Hr. subst. rewrite Forall_forall in HF.
    apply HF in Hi. cbn in Hi. lia. }
  induction ds as [|[d m] ds IH]; intros [|[e n] es] [F1 S1] [F2 S2] E.
  - reflexivity.
  - inversion F2 as [|? ? [H1 H2] _]; subst. cbn in *. destruct n; [lia|discriminate].
  - inversion F1 as [|? ? [H1 H2] _]; subst. cbn in *. destruct m; [lia|discriminate].
  - inversion F1 as [|? ? [H1 H2] F1']; inversion F2 as [|? ? [G1 G2] F2']; subst.
    unfold expand in E. cbn [flat_map fst snd] in E. fold (expand ds) (expand es) in E. cbn in *.
    assert (d = e) by (destruct m; [lia|]; destruct n; [lia|]; cbn in E; congruence). subst e.
    assert (m = n).
    { destruct (lt_eq_lt_dec m n) as [[L|L]|L]; [|exact L|]; exfalso.
      - replace n with (m + (n - m))%nat in E by lia. rewrite repeat_app, <- app_assoc in E. apply app_inv_head in E.
        apply (Hhead d m ds (n - m)%nat (expand es)); auto. lia.
      - replace m with (n + (m - n))%nat in E by lia. rewrite repeat_app, <- app_assoc in E. apply app_inv_head in E.
        apply (Hhead d n es (m - n)%nat (expand ds)); auto. lia. }
    subst n. apply app_inv_head in E. f_equal. apply IH; [|split; [assumption|now inversion S2]|exact E].
    split; [assumption|now inversion S1].
Qed.

Lemma prodl_rev l : prodl (rev l) = prodl l.
Proof. induction l; cbn; [reflexivity|]. rewrite prodl_app, IHl. cbn. lia. Qed.

Lemma groups_unique r s ds es : invariant_factors ds -> invariant_factors es ->
  group_iso (group_of r ds) (group_of s es) -> r = s /\ ds = es.
Proof.
  intros I1 I2 Hiso.
  assert (P1 := expand_gt1 _ (proj1 I1)). assert (P2 := expand_gt1 _ (proj1 I2)).
  assert (H : forall n, 0 < n -> n ^ Z.of_nat r * prodl (quot_mods n (expand ds)) = n ^ Z.of_nat s * prodl (quot_mods n (expand es))).
  { intros n Hn. pose proof (iso_count _ _ n Hn Hiso) as H. unfold group_of in H. fold (expand ds) (expand es) in H.
    unfold quot_mods in H. rewrite !map_app, !prodl_app in H. fold (quot_mods n) in H.
    change (map (Z.gcd n)) with (quot_mods n) in H. now rewrite !quot_zeros in H. }
  assert (Hr : r = s).
  { set (N := prodl (expand ds) * prodl (expand es)).
    assert (HN : 0 < N).
    { apply Z.mul_pos_pos; apply prodl_pos; eapply Forall_impl; [|exact P1| |exact P2]; cbn; lia. }
    assert (Q : forall k l, 0 < k -> (l = expand ds \/ l = expand es) -> quot_mods (k * N) l = l).
    { intros k l Hk Hl. apply quot_multiple; [nia|]. apply Forall_forall. intros x Hx.
      assert (0 < x) by (destruct Hl; subst l; rewrite Forall_forall in P1, P2; [specialize (P1 x Hx)|specialize (P2 x Hx)]; lia).
      split; [assumption|]. apply Z.divide_mul_r. unfold N.
      destruct Hl; subst l; [apply Z.divide_mul_l|apply Z.divide_mul_r]; now apply prodl_div. }
    pose proof (H (1 * N) ltac:(lia)) as E1. pose proof (H (2 * N) ltac:(lia)) as E2.
    rewrite !Q in E1, E2 by (auto; lia). rewrite Z.mul_1_l in E1. rewrite !Z.pow_mul_l in E2.
    assert (E3 : 2 ^ Z.of_nat r = 2 ^ Z.of_nat s).
    { assert (0 < N ^ Z.of_nat r) by (apply Z.pow_pos_nonneg; lia). assert (0 < prodl (expand ds)).
      { apply prodl_pos; eapply Forall_impl; [|exact P1]; cbn; lia. }
      assert (0 < N ^ Z.of_nat r * prodl (expand ds)) by nia.
      rewrite <- !Z.mul_assoc in E2. rewrite E1 in E2. rewrite E1 in H2.
      apply (Z.mul_cancel_r _ _ (N ^ Z.of_nat s * prodl (expand es))); lia. }
    apply Z.pow_inj_r in E3; lia. }
  subst s. split; [reflexivity|]. apply expand_inj; auto.
  assert (Hrev : rev (expand ds) = rev (expand es)).
  { apply down_unique.
    - now apply Forall_rev.
    - now apply Forall_rev.
    - apply rev_sorted. apply expand_up; apply I1.
    - apply rev_sorted. apply expand_up; apply I2.
    - intros n Hn. specialize (H n Hn). unfold quot_mods in *. rewrite !map_rev, !prodl_rev.
      assert (0 < n ^ Z.of_nat r) by (apply Z.pow_pos_nonneg; lia). nia. }
  rewrite <- (rev_involutive (expand ds)), Hrev. apply rev_involutive.
Qed.

(** ** Trivial factors *)
Fixpoint sel (ms x : list Z) : list Z :=
  match ms, x with m :: ms', a :: x' => if m =? 1 then sel ms' x' else a :: sel ms' x' | _, _ => [] end.
Fixpoint ins (ms y : list Z) : list Z :=
  match ms with
  | [] => []
  | m :: ms' => if m =? 1 then 0 :: ins ms' y else match y with b :: y' => b :: ins ms' y' | [] => [] end
  end.
Definition keep (ms : list Z) := filter (fun m => negb (m =? 1)) ms.
Lemma geq_cons m ms a x b y : geq (m :: ms) (a :: x) (b :: y) <-> (m | a - b) /\ geq ms x y.
Proof.
  split.
  - intros (H1 & H2 & H). split; [apply (H 0%nat); cbn; lia|]. split; [cbn in *; lia|]. split; [cbn in *; lia|].
    intros i Hi. apply (H (S i)). cbn; lia.
  - intros (H & H1 & H2 & H3). split; [cbn; lia|]. split; [cbn; lia|]. intros [|i] Hi; [exact H|]. apply H3. cbn in Hi; lia.
Qed.
Lemma geq_nil : geq [] [] [].
Proof. split; [reflexivity|]. split; [reflexivity|]. cbn; intros; lia. Qed.
Lemma sel_len ms x : gelt ms x -> gelt (keep ms) (sel ms x).
Proof.
  unfold gelt, keep. revert x; induction ms as [|m ms IH]; intros [|a x] H; try discriminate; [reflexivity|]. cbn.
  destruct (m =? 1); cbn; [apply IH|f_equal; apply IH]; cbn in H; lia.
Qed.
Lemma ins_len ms y : gelt (keep ms) y -> gelt ms (ins ms y).
Proof.
  unfold gelt, keep. revert y; induction ms as [|m ms IH]; intros y H; cbn; [reflexivity|]. cbn in H.
  destruct (m =? 1); cbn in *; [f_equal; now apply IH|]. destruct y; [discriminate|]. cbn. f_equal. apply IH. cbn in H; lia.
Qed.
Lemma sel_geq ms x y : geq ms x y -> geq (keep ms) (sel ms x) (sel ms y).
Proof.
  revert x y; induction ms as [|m ms IH]; intros [|a x] [|b y] H; try (destruct H as (H1 & H2 & _); discriminate); [exact geq_nil|].
  apply geq_cons in H. destruct H as [H1 H2]. cbn. destruct (m =? 1); cbn; [auto|]. apply geq_cons. auto.
Qed.
Lemma ins_geq ms x y : geq (keep ms) x y -> geq ms (ins ms x) (ins ms y).
Proof.
  revert x y; induction ms as [|m ms IH]; intros x y H; cbn; [exact geq_nil|]. cbn in H.
  destruct (m =? 1); cbn in *; [apply geq_cons; split; [apply Z.divide_0_r|auto]|].
  destruct x as [|a x], y as [|b y]; try (destruct H as (H1 & H2 & _); discriminate). apply geq_cons in H. apply geq_cons. destruct H; auto.
Qed.
Lemma sel_gadd ms x y : gelt ms x -> gelt ms y -> sel ms (gadd x y) = gadd (sel ms x) (sel ms y).
Proof.
  unfold gelt. revert x y; induction ms as [|m ms IH]; intros [|a x] [|b y] Hx Hy; try discriminate; [reflexivity|]. cbn.
  destruct (m =? 1); cbn; [|f_equal]; apply IH; cbn in *; lia.
Qed.
Lemma ins_gadd ms x y : gelt (keep ms) x -> gelt (keep ms) y -> ins ms (gadd x y) = gadd (ins ms x) (ins ms y).
Proof.
  unfold gelt, keep. revert x y; induction ms as [|m ms IH]; intros x y Hx Hy; cbn; [reflexivity|]. cbn in *.
  destruct (m =? 1); cbn in *; [f_equal; auto|]. destruct x, y; try discriminate. cbn. f_equal. apply IH; cbn in *; lia.
Qed.
Lemma sel_ins ms y : gelt (keep ms) y -> sel ms (ins ms y) = y.
Proof.
  unfold gelt, keep. revert y; induction ms as [|m ms IH]; intros y Hy; cbn in *.
  - destruct y; [reflexivity|discriminate].
  - destruct (m =? 1) eqn:E; cbn in *; [auto|]. destruct y; [discriminate|]. cbn in *. f_equal. apply IH; lia.
Qed.
Lemma ins_sel ms x : gelt ms x -> geq ms (ins ms (sel ms x)) x.
Proof.
  unfold gelt. revert x; induction ms as [|m ms IH]; intros [|a x] Hx; try discriminate; [exact geq_nil|]. cbn.
  destruct (m =? 1) eqn:E; apply geq_cons; split; try (apply IH; cbn in *; lia).
  - apply Z.eqb_eq in E. subst. apply Z.divide_1_l.
  - rewrite Z.sub_diag. apply Z.divide_0_r.
Qed.
Lemma group_iso_keep ms : group_iso ms (keep ms).
Proof.
  exists (sel ms), (ins ms). split; [|split; [|split]].
  - split; [apply sel_len|]. split; [apply sel_geq|]. intros x y Hx Hy. rewrite sel_gadd by assumption.
    apply geq_refl, gelt_gadd; now apply sel_len.
  - split; [apply ins_len|]. split; [apply ins_geq|]. intros x y Hx Hy. rewrite ins_gadd by assumption.
    apply geq_refl, gelt_gadd; now apply ins_len.
  - apply ins_sel.
  - intros y Hy. rewrite sel_ins by assumption. now apply geq_refl.
Qed.
Lemma keep_group_of r ds : keep (group_of r ds) = group_of r (filter (fun d => negb (fst d =? 1)) ds).
Proof.
  unfold keep, group_of. rewrite filter_app. f_equal.
  - induction r; cbn; [reflexivity|congruence].
  - induction ds as [|[d m] ds IH]; cbn; [reflexivity|]. rewrite filter_app, IH. destruct (d =? 1) eqn:E; cbn.
    + assert (filter (fun m0 => negb (m0 =? 1)) (repeat d m) = []) as ->; [|reflexivity].
      induction m; cbn; [reflexivity|]. now rewrite E.
    + f_equal. induction m; cbn; [reflexivity|]. rewrite E. cbn. congruence.
Qed.

Lemma divs_eqb_eq a b : divs_eqb a b = true <-> a = b.
Proof.
  revert b; induction a as [|[d m] a IH]; intros [|[e n] b]; cbn; try (split; congruence).
  rewrite !andb_true_iff, Z.eqb_eq, Nat.eqb_eq, IH. split; [intros [[-> ->] ->]; reflexivity|]. intros [= -> -> ->]. auto.
Qed.

Lemma module_iso_spec r ds s es :
  invariant_factors (filter (fun d => negb (fst d =? 1)) ds) -> invariant_factors (filter (fun d => negb (fst d =? 1)) es) ->
  (is_isomorphic_to (module_new r ds) (module_new s es) = true <-> group_iso (group_of r ds) (group_of s es)).
Proof.
  intros I1 I2. unfold is_isomorphic_to, module_new. cbn. rewrite andb_true_iff, Nat.eqb_eq, divs_eqb_eq. split.
  - intros [-> E]. eapply group_iso_trans; [apply group_iso_keep|]. rewrite keep_group_of, E, <- keep_group_of.
    apply group_iso_sym, group_iso_keep.
  - intros H. apply groups_unique; auto. rewrite <- !keep_group_of.
    eapply group_iso_trans; [apply group_iso_sym, group_iso_keep|]. eapply group_iso_trans; [exact H|apply group_iso_keep].
Qed.

Lemma module_iso_sound r ds s es :
  is_isomorphic_to (module_new r ds) (module_new s es) = true -> group_iso (group_of r ds) (group_of s es).
Proof.
  unfold is_isomorphic_to, module_new. cbn. rewrite andb_true_iff, Nat.eqb_eq, divs_eqb_eq. intros [-> E].
  eapply group_iso_trans; [apply group_iso_keep|]. rewrite keep_group_of, E, <- keep_group_of.
  apply group_iso_sym, group_iso_keep.
Qed.

Lemma module_zero_spec r ds : Forall (fun d => fst d = 1 \/ (1 < fst d /\ (0 < snd d)%nat)) ds ->
  (module_is_zero (module_new r ds) = true <-> forall x y, gelt (group_of r ds) x -> gelt (group_of r ds) y -> geq (group_of r ds) x y).
Proof.
  intros HF. unfold module_is_zero, module_new. cbn. rewrite andb_true_iff, Nat.eqb_eq. split.
  - intros [-> H] x y Hx Hy. split; [exact Hx|]. split; [exact Hy|]. intros i Hi.
    replace (nth i (group_of 0 ds) 0) with 1; [apply Z.divide_1_l|]. symmetry.
    assert (Hin := nth_In (group_of 0 ds) 0 Hi). unfold group_of in *. cbn in Hin. cbn.
    revert Hin. generalize (nth i (flat_map (fun d => repeat (fst d) (snd d)) ds) 0). intros z Hin.
    apply in_flat_map in Hin. destruct Hin as ([d m] & Hd & Hr). apply repeat_spec in Hr. cbn in Hr. subst z.
    destruct (d =? 1) eqn:E; [lia|]. exfalso.
    assert (Hf : In (d, m) (filter (fun d => negb (fst d =? 1)) ds)) by (apply filter_In; cbn; rewrite E; auto).
    destruct (filter _ ds); [destruct Hf|discriminate].
  - intros H.
    assert (Hall : forall m, In m (group_of r ds) -> (m | 1)).
    { intros m Hm. apply (In_nth _ _ 0) in Hm. destruct Hm as (i & Hi & <-).
      specialize (H (repeat 1 (length (group_of r ds))) (repeat 0 (length (group_of r ds)))).
      destruct H as (_ & _ & H); [apply repeat_length|apply repeat_length|]. specialize (H i Hi).
      replace (nth i (repeat 0 (length (group_of r ds))) 0) with 0 in H by (symmetry; apply nth_repeat).
      replace (nth i (repeat 1 (length (group_of r ds))) 0) with 1 in H; [exact H|].
      rewrite (nth_indep _ 0 1) by (now rewrite repeat_length). symmetry. apply nth_repeat. }
    split.
    + destruct r; [reflexivity|]. exfalso. specialize (Hall 0 ltac:(now left)). destruct Hall. lia.
    + destruct (filter _ ds) as [|[d m] l] eqn:E; [reflexivity|]. exfalso.
      assert (Hi : In (d, m) (filter (fun d => negb (fst d =? 1)) ds)) by (rewrite E; now left).
      apply filter_In in Hi. destruct Hi as [Hi Hne]. cbn in Hne. rewrite Forall_forall in HF. specialize (HF _ Hi). cbn in HF.
      destruct HF as [->|[H1 H2]]; [discriminate|].
      assert (Hd : (d | 1)).
      { apply Hall. unfold group_of. apply in_or_app. right. apply in_flat_map. exists (d, m). split; [exact Hi|]. cbn. destruct m; [lia|now left]. }
      apply Z.divide_1_r_nonneg in Hd; lia.
Qed.
