(** The boundary of a simplex: top degree. *)
From Coq Require Import List Arith ZArith Bool Lia ZifyBool ZifyNat Sorted.
From Verif Require Import PidModel LinModel LinSpec MatModel MatSpec MatProofs HomModel HomSpec HomProps SimpModel SimpSpec SimpProofs4 SimpProofs5 SimpProofs7 SimpProps CompProps LinProofs3 IsoSpec IsoProofs IsoProofs2 IsoProofs3 IsoProofs4 IsoProofs5 ConeSpec ConeProofs.
Import ListNotations.
Open Scope nat_scope.

Lemma skeleton_one {T} (eqb : T -> T -> bool) s : (forall x y, eqb x y = true <-> x = y) -> NoDup s -> skeleton eqb [s] = s.
Proof.
  intros He ND. unfold skeleton. cbn [concat]. rewrite app_nil_r.
  assert (G : forall l acc, NoDup (acc ++ l) -> fold_left (fun acc x => if existsb (eqb x) acc then acc else acc ++ [x]) l acc = acc ++ l).
  { induction l as [|x l IH]; intros acc N; cbn [fold_left]; [now rewrite app_nil_r|]. destruct (existsb (eqb x) acc) eqn:E.
    - exfalso. apply existsb_exists in E. destruct E as (y & Hy & E). apply He in E. subst y. apply NoDup_remove in N. apply (proj2 N), in_or_app. now left.
    - rewrite IH; rewrite <- app_assoc; [reflexivity|exact N]. }
  now rewrite G.
Qed.
Lemma subseq_full {A} (c l : list A) : subseq c l -> length c = length l -> c = l.
Proof.
  induction 1 as [|x c l H IH|x c l H IH]; intros E; [reflexivity| |cbn in E; f_equal; apply IH; lia].
  exfalso. assert (length c <= length l). { clear -H. induction H; cbn; lia. } cbn in E. lia.
Qed.

Section Sphere.
  Context {T : Type} (eqb : T -> T -> bool) (a : T) (hist : list (list T)) (R : list T) (n : nat).
  Hypothesis He : forall x y, eqb x y = true <-> x = y.
  Hypothesis V : valid_hist hist.
  Hypothesis HL : length (skeleton eqb hist) <= 64.
  Hypothesis Hd : has_dim hist n.
  Hypothesis HS : skeleton eqb hist = a :: R.
  Hypothesis Hn : 1 <= n.
  Hypothesis LR : length R = S n.
  Hypothesis HCELL : forall k c, is_cell eqb hist k c <-> subseq c (a :: R) /\ length c = S k /\ k <= n.
  Variable bm : list (mat Z * list (simplex T)).
  Hypothesis LB : length bm = S n.
  Hypothesis CD : complex_data bm.
  Hypothesis HC : forall k, k <= n -> exists D bs, nth_error bm k = Some (D, bs) /\ lists_cells eqb hist k (map s_labels bs).
  Hypothesis HE : forall k D0 rows D cols, nth_error bm k = Some (D0, rows) -> nth_error bm (k + 1) = Some (D, cols) -> nr D = length rows /\ nc D = length cols /\
      forall i j t s, nth_error rows i = Some t -> nth_error cols j = Some s -> face_sign (s_labels t) (s_labels s) (ent D i j).
  Set Default Proof Using "All".
  Lemma up_cell k t : k < n -> is_cell eqb hist k t -> ~ In a t -> is_cell eqb hist (k + 1) (a :: t).
  Proof.
    intros Hk Ht Na. apply HCELL in Ht. destruct Ht as (S1 & L & _). apply HCELL. split; [|split; [cbn; lia|lia]]. apply sub_keep. inversion S1; subst; [assumption|exfalso; apply Na; now left].
  Qed.
  Lemma ND : NoDup (a :: R). Proof. rewrite <- HS. now apply skeleton_spec. Qed.
  Lemma full_facts : exists Dn cells Dt top, nc Dn = length cells /\ lists_cells eqb [a :: R] n (map s_labels cells) /\ nr Dt = length cells /\ nc Dt = length top /\
    (exists s0, nth_error top 0 = Some s0 /\ s_labels s0 = a :: R) /\
    (exists rows, lists_cells eqb [a :: R] (n - 1) (map s_labels rows) /\ nr Dn = length rows /\ forall i j t s, nth_error rows i = Some t -> nth_error cells j = Some s -> face_sign (s_labels t) (s_labels s) (ent Dn i j)) /\
    (forall i j t s, nth_error cells i = Some t -> nth_error top j = Some s -> face_sign (s_labels t) (s_labels s) (ent Dt i j)) /\
    forall i, i < nr Dn -> sum (length cells) (fun l => ent Dn i l * ent Dt l 0)%Z = 0%Z.
  Proof.
    assert (VF : valid_hist [a :: R]) by (constructor; [split; [discriminate|apply ND]|constructor]).
    assert (SF : skeleton eqb [a :: R] = a :: R) by (apply skeleton_one; [exact He|apply ND]).
    assert (HF : has_dim [a :: R] (n + 1)) by (split; [exists (a :: R); split; [now left|cbn; lia]|]; intros t [<-|[]]; cbn; lia).
    destruct (facts eqb [a :: R] (n + 1) He VF ltac:(rewrite SF, <- HS; exact HL) HF) as (K & bf & _ & _ & LF & CF & HCF & _ & HEF).
    destruct (HCF n ltac:(lia)) as (Dn & cells & En & Cn). destruct (HCF (n + 1) ltac:(lia)) as (Dt & top & Et & Ct). destruct (HCF (n - 1) ltac:(lia)) as (Dp & rows & Ep & Cp).
    destruct (HEF _ _ _ _ _ En Et) as (A1 & A2 & A3). assert (En' : nth_error bf (n - 1 + 1) = Some (Dn, cells)) by (now replace (n - 1 + 1) with n by lia). destruct (HEF _ _ _ _ _ Ep En') as (B1 & B2 & B3).
    exists Dn, cells, Dt, top. split; [exact B2|]. split; [exact Cn|]. split; [exact A1|]. split; [exact A2|].
    assert (TS : exists s0, nth_error top 0 = Some s0 /\ s_labels s0 = a :: R).
    { destruct Ct as [_ Ct]. assert (HI : In (a :: R) (map s_labels top)). { apply Ct. split; [rewrite SF; apply subseq_refl'|]. split; [cbn; lia|]. exists (a :: R). split; [now left|apply incl_refl]. }
      destruct top as [|s0 top]; [destruct HI|]. exists s0. split; [reflexivity|]. assert (H0 : is_cell eqb [a :: R] (n + 1) (s_labels s0)) by (apply Ct; now left). destruct H0 as (S0 & L0 & _). rewrite SF in S0. apply subseq_full; [exact S0|cbn; lia]. }
    split; [exact TS|]. split; [exists rows; split; [exact Cp|]; split; [exact B1|exact B3]|]. split; [exact A3|].
    intros i Hi. destruct CF as (_ & (_ & CF) & _). destruct (CF n Dn Dt) as (C1 & C2); [rewrite nth_error_map, En; reflexivity|rewrite nth_error_map, Et; reflexivity|]. rewrite <- B2. apply C2; [exact Hi|]. rewrite A2. destruct TS as (s0 & E0 & _). destruct top; [discriminate|cbn; lia].
  Qed.
  Variables (D : mat Z) (bs : list (simplex T)).
  Hypothesis EB : nth_error bm n = Some (D, bs).
  Notation L := (map s_labels bs).
  Lemma cellsD : lists_cells eqb hist n L.
  Proof. destruct (HC n (le_n n)) as (D' & bs' & E & C). rewrite EB in E. injection E as <- <-. exact C. Qed.
  Lemma colsD : nc D = length bs.
  Proof. destruct CD as (_ & _ & F). rewrite Forall_forall in F. symmetry. exact (F _ (nth_error_In _ _ EB)). Qed.
  Lemma base_index : exists b, b < length bs /\ nth_error L b = Some R.
  Proof.
    assert (HI : In R L). { apply cellsD, HCELL. split; [apply sub_skip, subseq_refl'|]. split; [exact LR|lia]. } apply In_nth_error in HI. destruct HI as (b & Hb). exists b. split; [rewrite <- (map_length s_labels); apply nth_error_Some; congruence|exact Hb].
  Qed.
  Lemma apex_or_base l c b : nth_error L l = Some c -> nth_error L b = Some R -> l = b \/ exists r, c = a :: r.
  Proof.
    intros El Eb. assert (Cl : is_cell eqb hist n c) by (apply cellsD, (nth_error_In _ _ El)). apply HCELL in Cl. destruct Cl as (S1 & Lc & _). inversion S1 as [|? ? ? S2|? r ? S2]; subst.
    - left. rewrite (subseq_full _ _ S2) in El by lia. apply (proj1 (NoDup_nth_error L) (proj1 cellsD)); [apply nth_error_Some; congruence|congruence].
    - right. eauto.
  Qed.
  (** A cycle that vanishes on the face opposite to the apex is zero. *)
  Lemma cycle_zero x b : in_kernel D x -> nth_error L b = Some R -> nth b x 0%Z = 0%Z -> x = repeat 0%Z (nc D).
  Proof.
    intros Kx Eb Zb. assert (Lx := proj1 Kx). apply (nth_ext _ _ 0%Z 0%Z); [now rewrite repeat_length|]. intros i Hi. rewrite Lx, colsD in Hi. rewrite nth_repeat.
    destruct (nth_error L i) as [c|] eqn:Ei; [|apply nth_error_None in Ei; rewrite map_length in Ei; lia]. destruct (apex_or_base i c b Ei Eb) as [->|(r & ->)]; [exact Zb|].
    destruct (row_below eqb a hist R n He V HL Hd HS n up_cell bm LB CD HC HE n D bs x Hn EB Kx i r Ei) as (i0 & H0 & _ & F). pose proof (ker_row eqb a hist R n He V HL Hd HS n up_cell bm LB CD HC HE n D bs x Hn EB Kx i0 H0) as K.
    rewrite (zsum_one _ _ i Hi) in K.
    - rewrite (F i r Ei), Nat.eqb_refl in K. pose proof (alt_sq n). nia.
    - intros l Hl Nl. destruct (nth_error L l) as [c|] eqn:El; [|apply nth_error_None in El; rewrite map_length in El; lia]. destruct (apex_or_base l c b El Eb) as [->|(r' & ->)]; [rewrite Zb; lia|]. rewrite (F l r' El). replace (l =? i) with false by lia. lia.
  Qed.
  (** The boundary of the solid simplex is a cycle. *)
  Lemma fundamental b : nth_error L b = Some R -> exists z, in_kernel D z /\ (nth b z 0 * nth b z 0 = 1)%Z.
  Proof.
    intros Eb. destruct full_facts as (Dn & cells & Dt & top & N1 & CN & N2 & N3 & (s0 & E0 & Ls0) & (rows & CP & N4 & HN) & HT & HZ).
    assert (SF : skeleton eqb [a :: R] = a :: R) by (apply skeleton_one; [exact He|apply ND]).
    assert (SAME : forall k c, k <= n -> (is_cell eqb hist k c <-> is_cell eqb [a :: R] k c)).
    { intros k c Hk. rewrite HCELL. unfold is_cell. rewrite SF. split; [intros (A & B & _)|intros (A & B & _)]; (split; [exact A|]; split; [exact B|]); [|exact Hk]. exists (a :: R). split; [now left|now apply subseq_incl]. }
    destruct (list_bijection eq L (map s_labels cells)) as (LE & p & q & P & Q & RR); [apply cellsD|apply CN|congruence|congruence| | |].
    { intros c Hc. exists c. split; [|reflexivity]. apply CN, SAME; [lia|]. now apply cellsD. }
    { intros c Hc. exists c. split; [|reflexivity]. apply cellsD, SAME; [lia|]. now apply CN. }
    rewrite !map_length in *. assert (SP : signed_perm (length bs) p q (fun _ => 1%Z)) by (split; [exact P|]; split; [exact Q|reflexivity]).
    assert (PL : forall l c, nth_error L l = Some c -> exists t, nth_error cells (p l) = Some t /\ s_labels t = c).
    { intros l c El. assert (Hl : l < length bs) by (rewrite <- (map_length s_labels); apply nth_error_Some; congruence). destruct (P l Hl) as [Pl _]. destruct (nth_error cells (p l)) as [t|] eqn:Et; [|apply nth_error_None in Et; lia]. exists t. split; [reflexivity|].
      symmetry. apply (RR l); [exact El|]. now rewrite nth_error_map, Et. }
    set (z := map (fun l => ent Dt (p l) 0) (seq 0 (length bs))). assert (Lz : length z = length bs) by (unfold z; now rewrite map_length, seq_length).
    assert (Ez : forall l, l < length bs -> nth l z 0%Z = ent Dt (p l) 0). { intros l Hl. unfold z. apply nth_error_nth. rewrite nth_error_map, (nth_error_nth' _ 0) by (rewrite seq_length; lia). cbn [option_map]. now rewrite seq_nth by lia. }
    exists z. split.
    - split; [now rewrite colsD|]. intros i Hi. destruct (HC (n - 1) ltac:(lia)) as (Dp & rs & Ep & Cp). assert (EB' : nth_error bm (n - 1 + 1) = Some (D, bs)) by (now replace (n - 1 + 1) with n by lia). destruct (HE _ _ _ _ _ Ep EB') as (F1 & F2 & F3).
      rewrite F1 in Hi. destruct (nth_error rs i) as [t|] eqn:Et; [|apply nth_error_None in Et; lia].
      assert (Ct : is_cell eqb [a :: R] (n - 1) (s_labels t)) by (apply SAME; [lia|]; apply Cp, in_map, (nth_error_In _ _ Et)).
      assert (Ct' := Ct). apply CP in Ct'. apply In_nth_error in Ct'. destruct Ct' as (i2 & Ei2). rewrite nth_error_map in Ei2. destruct (nth_error rows i2) as [t2|] eqn:Et2; [|discriminate]. injection Ei2 as Ei2.
      assert (Hi2 : i2 < nr Dn) by (rewrite N4; apply nth_error_Some; congruence). specialize (HZ i2 Hi2). rewrite <- LE in HZ. rewrite <- (zsum_perm _ p q _ (fun l => ent Dn i2 l * ent Dt l 0)%Z SP) in HZ.
      unfold apply_at. rewrite colsD. eapply eq_trans; [|exact HZ]. apply zsum_ext. intros l Hl. rewrite Ez by exact Hl. f_equal.
      destruct (nth_error bs l) as [s|] eqn:Es; [|apply nth_error_None in Es; lia]. assert (El : nth_error L l = Some (s_labels s)) by (rewrite nth_error_map, Es; reflexivity). destruct (PL l _ El) as (s' & Es' & Ls').
      assert (Cs : is_cell eqb hist n (s_labels s)) by (apply cellsD, (nth_error_In _ _ El)). apply HCELL in Cs.
      apply (fs_fun eqb (a :: R) (s_labels t) (s_labels s)); [exact He|apply ND|apply Cs|destruct Ct as (Ct & _); now rewrite SF in Ct|now apply F3|]. rewrite <- Ei2, <- Ls'. now apply HN.
    - assert (Hb : b < length bs) by (rewrite <- (map_length s_labels); apply nth_error_Some; congruence). rewrite Ez by exact Hb. destruct (PL b R Eb) as (t & Et & Lt). pose proof (HT (p b) 0 t s0 Et E0) as F. rewrite Lt, Ls0 in F.
      assert (Na : ~ In a R) by (pose proof ND as N; now inversion N). destruct (fs_apex_no a R R _ Na F) as [(_ & ->)|(N & _)]; [apply alt_sq|now destruct N].
  Qed.
  Lemma sphere_top : quotient_is (in_kernel D) (boundaries_of (map fst bm) n) [0%Z].
  Proof.
    destruct base_index as (b & Hb & Eb). destruct (fundamental b Eb) as (z & Kz & Zb).
    assert (BO : forall x, boundaries_of (map fst bm) n x <-> x = repeat 0%Z (nc D)).
    { intros x. unfold boundaries_of. replace (nth_error (map fst bm) (n + 1)) with (@None (mat Z)) by (symmetry; apply nth_error_None; rewrite map_length; lia). rewrite nth_error_map, EB. cbn. split; [intros (d & [= <-] & E); exact E|intros E; exists D; split; [reflexivity|exact E]]. }
    exists (fun x => [nth b x 0%Z]). split; [reflexivity|]. split; [|split].
    - intros x y (Lx & _) (Ly & _). repeat split. intros i Hi. cbn [length] in Hi. destruct i as [|i]; [|lia]. cbn. rewrite gadd_nth by congruence. rewrite Z.sub_diag. apply Z.divide_0_r.
    - intros x Kx. rewrite BO. split.
      + intros (_ & _ & H). specialize (H 0 ltac:(cbn; lia)). cbn in H. apply Z.divide_0_l in H. apply (cycle_zero x b Kx Eb). lia.
      + intros ->. repeat split. intros i Hi. cbn [length] in Hi. destruct i as [|i]; [|lia]. cbn. rewrite nth_repeat. apply Z.divide_0_r.
    - intros g Hg. unfold gelt in Hg. destruct g as [|g [|? ?]]; try discriminate. set (u := (g * nth b z 0)%Z). exists (map (fun v => u * v)%Z z). assert (NM : forall l, nth l (map (fun v => u * v)%Z z) 0%Z = (u * nth l z 0)%Z) by (intros l; replace 0%Z with (u * 0)%Z at 1 by lia; apply map_nth). split.
      + destruct Kz as (Lz & Kz). split; [now rewrite map_length|]. intros i Hi. specialize (Kz i Hi). unfold apply_at in *. rewrite (zsum_ext _ _ (fun j => u * (ent D i j * nth j z 0))%Z) by (intros j Hj; rewrite NM; lia). rewrite zsum_mul, Kz. lia.
      + repeat split. intros i Hi. cbn [length] in Hi. destruct i as [|i]; [|lia]. cbn. rewrite NM. unfold u. rewrite <- Z.mul_assoc, Zb. replace (g * 1 - g)%Z with 0%Z by lia. apply Z.divide_0_r.
  Qed.
End Sphere.
