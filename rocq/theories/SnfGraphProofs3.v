(** The Smith form program on matrices whose columns have at most one 1 and at most one -1: it never computes a value outside -1, 0, 1. *)
From Coq Require Import List Arith ZArith Bool Lia ZifyBool ZifyNat.
From Verif Require Import PidModel PidProofs MatModel MatSpec MatProofs MatProofs2 SnfModel SnfProofs SnfProofs2 SnfProofs3 SnfChkModel SnfChkProofs SnfGraphProofs SnfGraphProofs2.
Import ListNotations.
Open Scope nat_scope.

Section Prog.
  Variable pl : policy.
  Hypothesis Har : forall z, unit_range z -> p_ar pl z = Some z.
  Hypothesis Hdiv : forall z, unit_range z -> p_div pl z = Some z.
  Variables (n m : nat) (src tgt : nat -> option nat).
  Notation GInv := (GInv n m src tgt).
  Notation St S R Ri C Ci := (Snf (mk n m S) (mk n n R) (mk n n Ri) (mk m m C) (mk m m Ci)).
  Implicit Types (S R Ri C Ci : efun).
  Definition all_units (st : snf) : Prop := exists S R Ri C Ci, st = St S R Ri C Ci /\
    (forall r l, r < n -> l < m -> unit_range (S r l)) /\ (forall r l, r < n -> l < n -> unit_range (R r l)) /\
    (forall r l, r < n -> l < n -> unit_range (Ri r l)) /\ (forall r l, r < m -> l < m -> unit_range (C r l)) /\
    (forall r l, r < m -> l < m -> unit_range (Ci r l)).
  Lemma GInv_units i j S R Ri C Ci comp phi : GInv i j S R Ri C Ci comp phi -> all_units (St S R Ri C Ci).
  Proof.
    intros G. exists S, R, Ri, C, Ci. split; [reflexivity|]. split; [apply (g_Sb _ _ _ _ _ _ _ _ _ _ _ _ _ G)|]. split; [|split; [apply (g_Rib _ _ _ _ _ _ _ _ _ _ _ _ _ G)|split; [apply (g_Cb _ _ _ _ _ _ _ _ _ _ _ _ _ G)|apply (g_Cib _ _ _ _ _ _ _ _ _ _ _ _ _ G)]]].
    intros r l Hr Hl. assert (B := g_Rb _ _ _ _ _ _ _ _ _ _ _ _ _ G r l Hr Hl). unfold unit_range. lia.
  Qed.
  Lemma find_col_mk S i j : find_col (mk n m S) i j = Some (find (fun l => existsb (fun k => negb (S k l =? 0)%Z) (rng i n)) (rng j m)).
  Proof.
    unfold find_col. cbn [nr nc mk]. fold (mk n m S). apply findM_some. intros l Hl. apply rng_in in Hl. apply anyM_some. intros k Hk. apply rng_in in Hk.
    unfold nonzeroM. now rewrite mget_in by lia.
  Qed.
  Lemma unit_mul s z : (s = 1 \/ s = -1)%Z -> unit_range z -> unit_range (z * s).
  Proof. unfold unit_range. intros [->| ->]; lia. Qed.

  Section Step.
    Variables (i j : nat) (S R Ri C Ci : efun) (comp : option nat -> option nat) (phi : nat -> option nat -> Z).
    Hypothesis G : GInv i j S R Ri C Ci comp phi.
    Hypothesis Hi : i < n.
    Hypothesis Hj : j < m.
    Hypothesis Hp : S i j <> 0%Z.
    Variables (x y : option nat).
    Hypothesis Hx : comp x = Some i.
    Hypothesis Hy : comp y <> Some i.
    Hypothesis HSj : forall r, i <= r < n -> (S r j = S i j * (dl (comp x) r - dl (comp y) r))%Z.
    Hypothesis HCj : forall a, a < m -> (S i j * C a j = phi a x - phi a y + S i j * zid a j)%Z.
    Notation k0 := (k0 n comp y).
    Notation S1 := (S1 n i S comp y).
    Notation R1 := (R1 n i R comp y).
    Notation Ri1 := (Ri1 n i Ri comp y).
    Notation ratio := (ratio i j S).
    Notation Sk := (Sk n i j S comp y).
    Notation Ck := (Ck i j S C).
    Notation Cik := (Cik i j S Ci).
    Let PU : (S i j = 1 \/ S i j = -1)%Z := pivot_unit n m src tgt i j S R Ri C Ci comp phi G Hi Hj Hp.
    Let KR : i < k0 <= n := k0_range n m src tgt i j S R Ri C Ci comp phi G Hi Hj Hp x y Hx Hy HSj HCj.

    Lemma rows_step : foldM (elim_row_step_p pl i j) (rng (i + 1) n) (St S R Ri C Ci) = Some (St S1 R1 Ri1 C Ci).
    Proof using Har Hdiv G Hi Hj Hp Hx Hy HSj HCj.
      destruct (foldM_inv (elim_row_step_p pl i j) (fun k st => st = if k0 <? k then St S1 R1 Ri1 C Ci else St S R Ri C Ci) (i + 1) n (St S R Ri C Ci)) as (st & E & H); [lia| | |].
      - replace (k0 <? i + 1) with false by lia. reflexivity.
      - intros k st Hk ->. destruct (Nat.eq_dec k k0) as [->|N].
        + replace (k0 <? k0) with false by lia. replace (k0 <? k0 + 1) with true by lia. eexists. split; [|reflexivity].
          unfold elim_row_step_p. cbn [sS sR sRi sC sCi]. unfold nonzeroM. rewrite mget_in by lia. cbn [obind].
          assert (EJ : S k0 j = (- S i j)%Z).
          { rewrite (col_j n m src tgt i j S R Ri C Ci comp phi G Hi Hj Hp x y Hx Hy HSj HCj) by lia. now rewrite Nat.eqb_refl. }
          replace (negb (S k0 j =? 0)%Z) with true by lia. rewrite mget_in by lia. cbn [obind]. rewrite EJ.
          rewrite (quot_p_unit pl Har Hdiv) by (try assumption; unfold unit_range; lia). cbn [obind].
          replace (S i j * - S i j)%Z with (-1)%Z by (destruct PU as [->| ->]; reflexivity).
          rewrite Har by (unfold unit_range; lia). cbn [obind Z.opp].
          assert (U1 := S1_unit n m src tgt i j S R Ri C Ci comp phi G Hi Hj Hp x y Hx Hy HSj HCj).
          assert (U2 := R1_01 n m src tgt i j S R Ri C Ci comp phi G Hi Hj Hp x y Hx Hy HSj HCj).
          assert (U3 := Ri1_unit n m src tgt i j S R Ri C Ci comp phi G Hi Hj Hp x y Hx Hy HSj HCj).
          unfold SnfGraphProofs2.S1 in U1. unfold SnfGraphProofs2.R1 in U2. unfold SnfGraphProofs2.Ri1 in U3.
          assert (B1 := g_Sb _ _ _ _ _ _ _ _ _ _ _ _ _ G). assert (B2 := g_Rb _ _ _ _ _ _ _ _ _ _ _ _ _ G). assert (B3 := g_Ri _ _ _ _ _ _ _ _ _ _ _ _ _ G).
          rewrite (row_operation_p_mk pl Har Hdiv); [|lia|lia|lia| |].
          2:{ intros q Hq. rewrite Z.mul_1_r. apply B1; lia. }
          2:{ intros q Hq. rewrite Z.mul_1_r. specialize (U1 k0 q ltac:(lia) Hq). rewrite Nat.eqb_refl in U1. exact U1. }
          cbn [obind]. rewrite (row_operation_p_mk pl Har Hdiv); [|lia|lia|lia| |].
          2:{ intros q Hq. specialize (B2 i q Hi Hq). unfold unit_range. lia. }
          2:{ intros q Hq. specialize (U2 k0 q ltac:(lia) Hq). rewrite Nat.eqb_refl in U2. unfold unit_range. lia. }
          cbn [obind]. rewrite (col_operation_p_mk pl Har Hdiv); [|lia|lia|lia| |].
          2:{ intros q Hq. specialize (B3 q k0 Hq ltac:(lia)). unfold unit_range. lia. }
          2:{ intros q Hq. specialize (U3 q i Hq Hi). rewrite Nat.eqb_refl in U3. replace (k0 <? n) with true in U3 by lia. cbn [andb] in U3. unfold unit_range in *. lia. }
          cbn [obind]. do 2 f_equal.
          * apply mk_ext. intros p q _ _. unfold rblk, SnfGraphProofs2.S1. destruct (p =? k0); [ring|]. destruct (Nat.eqb_spec p i) as [->|]; [ring|reflexivity].
          * apply mk_ext. intros p q _ _. unfold rblk, SnfGraphProofs2.R1. destruct (p =? k0); [ring|]. destruct (Nat.eqb_spec p i) as [->|]; [ring|reflexivity].
          * apply mk_ext. intros p q _ _. unfold cblk, SnfGraphProofs2.Ri1. replace (k0 <? n) with true by lia. rewrite andb_true_r. destruct (q =? i); [ring|]. destruct (Nat.eqb_spec q k0) as [->|]; [ring|reflexivity].
        + replace (k0 <? k + 1) with (k0 <? k) by lia. eexists. split; [|reflexivity]. destruct (k0 <? k) eqn:Ek.
          * unfold elim_row_step_p. cbn [sS]. unfold nonzeroM. rewrite mget_in by lia. cbn [obind].
            rewrite (S1_j n m src tgt i j S R Ri C Ci comp phi G Hi Hj Hp x y Hx Hy HSj HCj) by lia. now replace (k =? i) with false by lia.
          * unfold elim_row_step_p. cbn [sS]. unfold nonzeroM. rewrite mget_in by lia. cbn [obind].
            rewrite (col_j n m src tgt i j S R Ri C Ci comp phi G Hi Hj Hp x y Hx Hy HSj HCj) by lia. now replace (k =? k0) with false by lia.
      - rewrite E, H. destruct (Nat.ltb_spec k0 n) as [L|L]; [reflexivity|]. do 2 f_equal.
        + apply mk_ext. intros p q Hp' _. unfold SnfGraphProofs2.S1. now replace (p =? k0) with false by lia.
        + apply mk_ext. intros p q Hp' _. unfold SnfGraphProofs2.R1. now replace (p =? k0) with false by lia.
        + apply mk_ext. intros p q _ _. unfold SnfGraphProofs2.Ri1. replace (k0 <? n) with false by lia. now rewrite andb_false_r.
    Qed.
    Lemma cols_step : foldM (elim_col_step_p pl i j) (rng (j + 1) m) (St S1 R1 Ri1 C Ci) = Some (St (Sk m) R1 Ri1 (Ck m) (Cik m)).
    Proof using Har Hdiv G Hi Hj Hp Hx Hy HSj HCj.
      assert (E1i := S1_i n m src tgt i j S R Ri C Ci comp phi G Hi Hj Hp x y Hx Hy HSj HCj).
      assert (E1j := S1_j n m src tgt i j S R Ri C Ci comp phi G Hi Hj Hp x y Hx Hy HSj HCj).
      assert (RU := ratio_unit n m src tgt i j S R Ri C Ci comp phi G Hi Hj Hp x y Hx Hy HSj HCj).
      assert (CU := C_new_unit n m src tgt i j S R Ri C Ci comp phi G Hi Hj Hp x y Hx Hy HSj HCj).
      assert (CB := g_Cb _ _ _ _ _ _ _ _ _ _ _ _ _ G). assert (CI := g_Ci _ _ _ _ _ _ _ _ _ _ _ _ _ G).
      assert (SB := g_Sb _ _ _ _ _ _ _ _ _ _ _ _ _ G). assert (S1U := S1_unit n m src tgt i j S R Ri C Ci comp phi G Hi Hj Hp x y Hx Hy HSj HCj).
      assert (P2 : (S i j * S i j = 1)%Z) by (destruct PU as [->| ->]; reflexivity).
      destruct (foldM_inv (elim_col_step_p pl i j) (fun k st => st = St (Sk k) R1 Ri1 (Ck k) (Cik k)) (j + 1) m (St S1 R1 Ri1 C Ci)) as (st & E & H); [lia| | |].
      - f_equal; apply mk_ext; intros p q _ _; [unfold SnfGraphProofs2.Sk|unfold SnfGraphProofs2.Ck|unfold SnfGraphProofs2.Cik].
        + destruct (p =? i); cbn [andb]; [|reflexivity]. now replace ((j <? q) && (q <? j + 1)) with false by lia.
        + now replace ((j <? q) && (q <? j + 1)) with false by lia.
        + destruct (p =? j); cbn [andb]; [|reflexivity]. now replace ((j <? q) && (q <? j + 1)) with false by lia.
      - intros l st Hl ->. eexists. split; [|reflexivity]. unfold elim_col_step_p. cbn [sS sR sRi sC sCi]. unfold nonzeroM. rewrite mget_in by lia. cbn [obind].
        assert (EI : Sk l i l = S i l).
        { unfold SnfGraphProofs2.Sk. replace (l <? l) with false by lia. rewrite andb_false_r. apply E1i. }
        assert (EJ : forall r, Sk l r j = S1 r j).
        { intros r. unfold SnfGraphProofs2.Sk. replace (j <? j) with false by lia. now rewrite andb_false_r. }
        rewrite EI. destruct (Z.eqb_spec (S i l) 0) as [E0|E0]; cbn [negb].
        + do 2 f_equal; apply mk_ext; intros p q Hp' Hq; [unfold SnfGraphProofs2.Sk|unfold SnfGraphProofs2.Ck|unfold SnfGraphProofs2.Cik].
          * destruct (Nat.eqb_spec p i) as [->|]; cbn [andb]; [|reflexivity]. destruct (Nat.eq_dec q l) as [->|].
            -- replace (l <? l) with false by lia. replace (l <? l + 1) with true by lia. replace (j <? l) with true by lia. cbn [andb]. now rewrite E1i.
            -- now replace (q <? l + 1) with (q <? l) by lia.
          * destruct (Nat.eq_dec q l) as [->|].
            -- replace (l <? l) with false by lia. replace (l <? l + 1) with true by lia. replace (j <? l) with true by lia. cbn [andb]. unfold SnfGraphProofs2.ratio. rewrite E0. ring.
            -- now replace (q <? l + 1) with (q <? l) by lia.
          * destruct (Nat.eqb_spec p j) as [->|]; cbn [andb]; [|reflexivity]. destruct (Nat.eq_dec q l) as [->|].
            -- replace (l <? l) with false by lia. replace (l <? l + 1) with true by lia. replace (j <? l) with true by lia. cbn [andb]. unfold SnfGraphProofs2.ratio. rewrite E0.
               rewrite CI by lia. unfold id_entry. replace (j =? l) with false by lia. cbn [t0 ops_Z]. ring.
            -- now replace (q <? l + 1) with (q <? l) by lia.
        + rewrite mget_in by lia. cbn [obind]. rewrite EJ, E1i. rewrite (quot_p_unit pl Har Hdiv) by (auto; apply SB; lia). cbn [obind].
          assert (RT := RU l ltac:(lia)). unfold SnfGraphProofs2.ratio in RT. rewrite Har by (unfold unit_range in *; lia). cbn [obind].
          assert (Rs : (S i j * S i l = 1 \/ S i j * S i l = -1)%Z).
          { unfold unit_range in RT. assert (S i j * S i l <> 0)%Z; [|lia]. intros X. apply Z.mul_eq_0 in X. tauto. }
          rewrite (col_operation_p_mk pl Har Hdiv); [|lia|lia|lia| |].
          2:{ intros p Hp'. apply unit_mul; [lia|]. rewrite EJ. apply S1U; lia. }
          2:{ intros p Hp'. rewrite EJ. unfold SnfGraphProofs2.Sk. replace (l <? l) with false by lia. rewrite andb_false_r. rewrite E1j by lia.
              destruct (Nat.eqb_spec p i) as [->|]; [|rewrite Z.mul_0_l, Z.add_0_r; apply S1U; lia]. rewrite E1i.
              replace (S i l + S i j * - (S i j * S i l))%Z with (S i l - (S i j * S i j) * S i l)%Z by ring. rewrite P2. unfold unit_range. lia. }
          cbn [obind]. rewrite (col_operation_p_mk pl Har Hdiv); [|lia|lia|lia| |].
          2:{ intros p Hp'. apply unit_mul; [lia|]. unfold SnfGraphProofs2.Ck. replace (j <? j) with false by lia. cbn [andb]. apply CB; lia. }
          2:{ intros p Hp'. unfold SnfGraphProofs2.Ck. replace (j <? j) with false by lia. replace (l <? l) with false by lia. rewrite andb_false_r. cbn [andb].
              replace (C p l + C p j * - (S i j * S i l))%Z with (C p l - ratio l * C p j)%Z by (unfold SnfGraphProofs2.ratio; ring). apply CU; lia. }
          cbn [obind]. rewrite (row_operation_p_mk pl Har Hdiv); [|lia|lia|lia| |].
          2:{ intros q Hq. unfold SnfGraphProofs2.Cik. replace (l =? j) with false by lia. cbn [andb]. rewrite CI by lia. apply unit_mul; [lia|]. unfold id_entry, unit_range. destruct (l =? q); cbn [t0 t1 ops_Z]; lia. }
          2:{ intros q Hq. unfold SnfGraphProofs2.Cik. rewrite Nat.eqb_refl. replace (l =? j) with false by lia. cbn [andb]. rewrite (CI l) by lia. unfold id_entry.
              destruct (Nat.eqb_spec l q) as [<-|N]; cbn [t0 t1 ops_Z].
              - replace (l <? l) with false by lia. rewrite andb_false_r. rewrite CI by lia. unfold id_entry. replace (j =? l) with false by lia. cbn [t0 ops_Z]. unfold unit_range in *. lia.
              - rewrite Z.mul_0_l, Z.add_0_r. destruct (_ && _); [apply RU; lia|]. rewrite CI by lia. unfold id_entry, unit_range. destruct (j =? q); cbn [t0 t1 ops_Z]; lia. }
          cbn [obind]. do 2 f_equal; apply mk_ext; intros p q Hp' Hq; [unfold cblk; rewrite EJ|unfold cblk|unfold rblk]; [unfold SnfGraphProofs2.Sk|unfold SnfGraphProofs2.Ck|unfold SnfGraphProofs2.Cik].
          * replace (l <? l) with false by lia. rewrite andb_false_r. destruct (Nat.eqb_spec q l) as [->|Nq].
            -- replace (l <? l + 1) with true by lia. replace (j <? l) with true by lia. rewrite E1j by lia. destruct (Nat.eqb_spec p i) as [->|]; cbn [andb].
               ++ rewrite E1i. replace (1 * S i l + - (S i j * S i l) * S i j)%Z with (S i l - (S i j * S i j) * S i l)%Z by ring. rewrite P2. ring.
               ++ ring.
            -- replace (q <? l + 1) with (q <? l) by lia. destruct (Nat.eqb_spec q j) as [->|]; [|reflexivity].
               replace (j <? j) with false by lia. rewrite andb_false_r. cbn [andb]. replace (0 * S1 p l + 1 * S1 p j)%Z with (S1 p j) by ring. reflexivity.
          * replace (j <? j) with false by lia. replace (l <? l) with false by lia. rewrite andb_false_r. cbn [andb]. destruct (Nat.eqb_spec q l) as [->|Nq].
            -- replace (l <? l + 1) with true by lia. replace (j <? l) with true by lia. cbn [andb]. unfold SnfGraphProofs2.ratio. ring.
            -- replace (q <? l + 1) with (q <? l) by lia. destruct (Nat.eqb_spec q j) as [->|]; [|reflexivity]. replace (j <? j) with false by lia. cbn [andb]. ring.
          * rewrite Nat.eqb_refl. replace (l =? j) with false by lia. cbn [andb]. destruct (Nat.eqb_spec p j) as [->|Np]; cbn [andb].
            -- rewrite (CI l) by lia. unfold id_entry. destruct (Nat.eqb_spec l q) as [<-|N]; cbn [t0 t1 ops_Z].
               ++ replace (l <? l) with false by lia. rewrite andb_false_r. replace (l <? l + 1) with true by lia. replace (j <? l) with true by lia. cbn [andb].
                  rewrite CI by lia. unfold id_entry. replace (j =? l) with false by lia. cbn [t0 ops_Z]. unfold SnfGraphProofs2.ratio. ring.
               ++ replace (q <? l + 1) with (q <? l) by lia. destruct (_ && _); ring.
            -- destruct (Nat.eqb_spec p l) as [->|]; [|reflexivity]. ring.
      - rewrite E, H. reflexivity.
    Qed.
  End Step.

  Set Default Proof Using "All".
  Lemma improve_unit i j S R Ri C Ci : i < n -> j < m -> (S i j = 1 \/ S i j = -1)%Z -> (forall r l, r < n -> l < m -> unit_range (S r l)) ->
    improve_p pl (improve_fuel i j (mk n m S)) i j (St S R Ri C Ci) = Some (St S R Ri C Ci).
  Proof.
    intros Hi Hj Hp HS. unfold improve_fuel. rewrite mget_in by lia. cbn [improve_p]. unfold not_divides_some_p. cbn [sS nr nc mk]. fold (mk n m S).
    assert (D : forall r l, r < n -> l < m -> dividesM_p pl (mk n m S) i j r l = Some true).
    { intros r l Hr Hl. unfold dividesM_p. rewrite !mget_in by lia. cbn [obind]. apply divides_p_unit; auto. }
    rewrite (anyM_some _ (fun _ => false)) by (intros k Hk; apply rng_in in Hk; now rewrite D by lia).
    rewrite (anyM_some _ (fun _ => false)) by (intros k Hk; apply rng_in in Hk; now rewrite D by lia).
    assert (F : forall l : list nat, existsb (fun _ => false) l = false) by (induction l; auto). rewrite !F. reflexivity.
  Qed.
  Lemma pivot_step_ok fuel (IH : forall i j S R Ri C Ci comp phi, GInv i j S R Ri C Ci comp phi -> n <= i + fuel ->
      exists st, pivot_loop_p pl fuel i j (St S R Ri C Ci) = Some st /\ all_units st) i j S R Ri C Ci comp phi :
    GInv i j S R Ri C Ci comp phi -> n <= i + Datatypes.S fuel -> i < n -> j < m -> S i j <> 0%Z -> exists st,
    (do _ <- dassert pl (nonzeroM (mk n m S) i j);
     do st3 <- improve_p pl (improve_fuel i j (mk n m S)) i j (St S R Ri C Ci);
     do st4 <- foldM (elim_row_step_p pl i j) (rng (i + 1) (nr (sS st3))) st3;
     do st5 <- foldM (elim_col_step_p pl i j) (rng (j + 1) (nc (sS st4))) st4;
     pivot_loop_p pl fuel (i + 1) (j + 1) st5) = Some st /\ all_units st.
  Proof.
    intros G Hf Hi Hj Hp.
    rewrite dassert_true by (auto; unfold nonzeroM; rewrite mget_in by lia; cbn [obind]; now replace (S i j =? 0)%Z with false by lia). cbn [obind].
    assert (PU := pivot_unit n m src tgt i j S R Ri C Ci comp phi G Hi Hj Hp).
    rewrite improve_unit by (auto; apply (g_Sb _ _ _ _ _ _ _ _ _ _ _ _ _ G)). cbn [obind sS nr nc mk].
    destruct (pivot_ends n m src tgt i j S R Ri C Ci comp phi G Hi Hj Hp) as (x & y & Hx & Hy & HSj & HCj).
    rewrite (rows_step i j S R Ri C Ci comp phi G Hi Hj Hp x y Hx Hy HSj HCj). cbn [obind sS nr nc mk].
    rewrite (cols_step i j S R Ri C Ci comp phi G Hi Hj Hp x y Hx Hy HSj HCj). cbn [obind].
    apply (IH _ _ _ _ _ _ _ _ _ (GInv_step n m src tgt i j S R Ri C Ci comp phi G Hi Hj Hp x y Hx Hy HSj HCj)). lia.
  Qed.
  Lemma pivot_loop_units fuel : forall i j S R Ri C Ci comp phi, GInv i j S R Ri C Ci comp phi -> n <= i + fuel ->
    exists st, pivot_loop_p pl fuel i j (St S R Ri C Ci) = Some st /\ all_units st.
  Proof.
    induction fuel as [|fuel IH]; intros i j S R Ri C Ci comp phi G Hf.
    - cbn [pivot_loop_p sS nr nc mk]. assert (Gi := g_i _ _ _ _ _ _ _ _ _ _ _ _ _ G). replace (i <? n) with false by lia. cbn [andb].
      eexists. split; [reflexivity|]. eapply GInv_units, G.
    - cbn [pivot_loop_p sS sR sRi sC sCi]. rewrite nr_mk, nc_mk. destruct ((i <? n) && (j <? m)) eqn:Eij.
      2:{ eexists. split; [reflexivity|]. eapply GInv_units, G. }
      rewrite find_col_mk. cbn [obind]. destruct (find _ (rng j m)) as [j'|] eqn:Ef.
      2:{ eexists. split; [reflexivity|]. eapply GInv_units, G. }
      apply find_rng in Ef. destruct Ef as (Hj' & Ex & HZ).
      rewrite find_col_mk. cbn [obind]. rewrite find_rng_first; [|lia|exact Ex]. rewrite !swap_cols_same, swap_rows_same by lia. cbn [obind sS sR sRi sC sCi].
      assert (G1 : GInv i j' S R Ri C Ci comp phi).
      { apply (GInv_skip n m src tgt i j); [exact G|lia|]. intros r l Hr Hl. specialize (HZ l Hl). destruct (Z.eqb_spec (S r l) 0) as [E|E]; [exact E|].
        exfalso. rewrite <- not_true_iff_false in HZ. apply HZ. apply existsb_exists. exists r. split; [apply rng_in; lia|]. now replace (S r l =? 0)%Z with false by lia. }
      unfold nonzeroM at 1. rewrite mget_in by lia. cbn [obind]. destruct (Z.eqb_spec (S i j') 0) as [Ez|Ez]; cbn [negb].
      + apply existsb_exists in Ex. destruct Ex as (k1 & Hk1 & Hk1'). apply rng_in in Hk1.
        rewrite nr_mk. rewrite (findM_some _ (fun k => negb (S k j' =? 0)%Z)) by (intros k Hk; apply rng_in in Hk; unfold nonzeroM; now rewrite mget_in by lia).
        cbn [obind]. destruct (find _ _) as [k|] eqn:Ef.
        2:{ exfalso. assert (X := find_none _ _ Ef k1 ltac:(apply rng_in; lia)). cbn in X. congruence. }
        apply find_rng in Ef. destruct Ef as (K1 & K2 & _). assert (Hik : i <> k) by (intros ->; lia).
        rewrite !swap_rows_blk, swap_cols_blk by lia. cbn [obind sS].
        apply (pivot_step_ok fuel IH i j' _ _ _ _ _ _ _ (GInv_swap n m src tgt i j' k S R Ri C Ci comp phi G1 ltac:(lia) ltac:(lia)) Hf ltac:(lia) ltac:(lia)).
        rewrite rblk_swap. unfold tr. rewrite Nat.eqb_refl. lia.
      + cbn [obind sS]. apply (pivot_step_ok fuel IH i j' _ _ _ _ _ comp phi G1 Hf ltac:(lia) ltac:(lia) Ez).
  Qed.
  Lemma diag_loop_units rs : forall st st', (forall r, In r rs -> r < n /\ r < m) -> all_units st -> diag_loop rs st = Some st' -> all_units st'.
  Proof.
    induction rs as [|r rs IH]; intros st st' Hr HU E; cbn [diag_loop] in E; [now injection E as <-|].
    destruct (Hr r (or_introl eq_refl)) as [Hn Hm]. assert (Hr2 : forall q, In q rs -> q < n /\ q < m) by (intros; apply Hr; now right).
    assert (HU' := HU). destruct HU as (S & R & Ri & C & Ci & -> & U1 & U2 & U3 & U4 & U5). cbn [sS sR sRi sC sCi] in E. unfold nonzeroM at 1 in E. rewrite mget_in in E by lia. cbn [obind] in E.
    destruct (negb _); [now apply (IH _ _ Hr2 HU' E)|].
    rewrite nc_mk in E. rewrite (findM_some _ (fun s => negb (S r s =? 0)%Z)) in E by (intros k Hk; apply rng_in in Hk; unfold nonzeroM; now rewrite mget_in by lia).
    cbn [obind] in E. destruct (find _ _) as [s|] eqn:Ef; [|now injection E as <-]. apply find_rng in Ef. destruct Ef as (F1 & _).
    rewrite mget_in in E by lia. cbn [obind] in E. rewrite mset_mk in E by lia. cbn [obind] in E. rewrite mset_mk in E by lia. cbn [obind] in E.
    rewrite swap_cols_blk in E by lia. cbn [obind] in E. rewrite swap_rows_blk in E by lia. cbn [obind] in E. apply IH in E; [exact E|exact Hr2|].
    eexists _, _, _, _, _. split; [reflexivity|]. split; [|split; [exact U2|split; [exact U3|split]]].
    - intros p q Hp Hq. cbv beta. destruct (_ && _); [unfold unit_range; lia|]. destruct (_ && _); [apply U1; lia|now apply U1].
    - intros p q Hp Hq. rewrite cblk_swap. apply U4; [exact Hp|]. apply (tr_range src tgt r s q 0 m); lia.
    - intros p q Hp Hq. rewrite rblk_swap. apply U5; [|exact Hq]. apply (tr_range src tgt s r p 0 m); lia.
  Qed.
End Prog.

(** The whole program, debug build. *)
Lemma width_unit w z : (2 <= w)%Z -> unit_range z -> width w z = Some z.
Proof.
  intros Hw Hz. unfold width, unit_range in *. assert (2 ^ 1 <= 2 ^ (w - 1))%Z by (apply Z.pow_le_mono_r; lia). change (2 ^ 1)%Z with 2%Z in *.
  replace (- 2 ^ (w - 1) <=? z)%Z with true by (symmetry; apply Z.leb_le; lia).
  now replace (z <=? 2 ^ (w - 1) - 1)%Z with true by (symmetry; apply Z.leb_le; lia).
Qed.
Lemma snf_units w n m src tgt (f : efun) : (2 <= w)%Z -> 0 < n -> 0 < m ->
  (forall r l, r < n -> l < m -> f r l = (dl (src l) r - dl (tgt l) r)%Z) ->
  exists Ri R S C Ci rk, smith_normal_form_p (debug w) (mk n m f) = Some (mk n n Ri, mk n n R, mk n m S, mk m m C, mk m m Ci) /\
    all_units n m (Snf (mk n m S) (mk n n R) (mk n n Ri) (mk m m C) (mk m m Ci)) /\ Diag n m S rk /\ inverse_on m C Ci.
Proof.
  intros Hw Hn Hm Hf.
  assert (Har : forall z, unit_range z -> p_ar (debug w) z = Some z) by (intros; now apply width_unit).
  assert (Hdiv : forall z, unit_range z -> p_div (debug w) z = Some z) by (intros; now apply width_unit).
  pose (cut := fun o : option nat => match o with Some r => if r <? n then Some r else None | None => None end).
  assert (Dcut : forall o r, r < n -> dl (cut o) r = dl o r).
  { intros [x|] r Hr; unfold cut; cbn [dl]; [|reflexivity]. destruct (Nat.ltb_spec x n); cbn [dl]; [reflexivity|]. now replace (x =? r) with false by lia. }
  assert (FU : forall r l, r < n -> l < m -> unit_range (f r l)).
  { intros r l Hr Hl. rewrite Hf by assumption. unfold unit_range.
    destruct (dl_cases (src l) r) as [[_ ->]|[_ ->]], (dl_cases (tgt l) r) as [[_ ->]|[_ ->]]; lia. }
  assert (IU : forall a b, unit_range (zid a b)) by (intros; unfold id_entry, unit_range; destruct (a =? b); cbn [t0 t1 ops_Z]; lia).
  assert (G0 : GInv n m src tgt 0 0 f zid zid zid zid cut (fun _ _ => 0%Z)).
  { constructor; try lia; auto.
    - intros [x|] r E; unfold cut in E; [|discriminate]. destruct (Nat.ltb_spec x n); [|discriminate]. injection E as <-. lia.
    - intros r l Hr Hl. rewrite !Dcut by lia. apply Hf; lia.
    - intros r u Hr Hu. rewrite Dcut by lia. unfold id_entry. cbn [dl t0 t1 ops_Z]. rewrite (Nat.eqb_sym u r). reflexivity.
    - intros r u Hr Hu. unfold id_entry. destruct (r =? u); cbn [t0 t1 ops_Z]; lia.
    - intros r u Hr Hu. unfold id_entry. destruct (r =? u); cbn [t0 t1 ops_Z]; lia.
    - intros a. split; [reflexivity|]. exists 1%Z, None. split; [auto|]. intros v. now left. }
  destruct (pivot_loop_units (debug w) Har Hdiv n m src tgt n 0 0 _ _ _ _ _ _ _ G0 ltac:(lia)) as (st1 & E1 & U1).
  assert (E1' := proj1 (ag_pivot debug good_debug n 0 0 _) _ _ E1).
  destruct (snf_pivots_ok n m f Hn Hm) as (S & st & rk & E & H1 & H2).
  assert (ED : diag_loop (rng 0 (Nat.min n m)) st1 = Some st).
  { unfold snf_pivots in E. cbn [nr nc mk] in E. fold (mk n m f) in E. rewrite !midentity_mk in E by assumption. cbn [obind] in E. rewrite E1' in E. exact E. }
  assert (U := diag_loop_units (debug w) Har Hdiv n m src tgt (rng 0 (Nat.min n m)) st1 st ltac:(intros r Hr; apply rng_in in Hr; lia) U1 ED).
  unfold smith_normal_form_p. rewrite nr_mk, nc_mk, !midentity_mk by assumption. cbn [obind]. rewrite E1. cbn [obind]. rewrite ED. cbn [obind].
  rewrite (snf_rank_ok n m f S st rk H1 H2). cbn [obind].
  assert (UD : forall a b, a < rk -> b < rk -> dividesM_p (debug w) (sS st) a a b b = Some true).
  { intros a b Ha Hb. destruct H2 as (L1 & L2 & NZ & _). unfold dividesM_p. rewrite !(rep_get n m f S st) by (auto; lia). cbn [obind].
    destruct U as (S' & R' & Ri' & C' & Ci' & Est & V & _). assert (EQ : forall p, p < rk -> S p p = S' p p).
    { intros p Hp. assert (X := rep_get n m f S st p p H1 ltac:(lia) ltac:(lia)). rewrite Est in X. cbn [sS] in X. rewrite mget_in in X by lia. congruence. }
    assert (Va : unit_range (S a a)) by (rewrite EQ by lia; apply V; lia). assert (Vb : unit_range (S b b)) by (rewrite EQ by lia; apply V; lia).
    apply divides_p_unit; auto. specialize (NZ a Ha). unfold unit_range in Va. lia. }
  assert (EV : divis_loop_p (debug w) rk st = Some st).
  { unfold divis_loop_p. destruct (foldM_inv (fun st r => foldM (divis_step_p (debug w) r) (rng (r + 1) rk) st) (fun _ s => s = st) 0 rk st) as (s & Es & ->); [lia|reflexivity| |exact Es].
    intros r s Hr ->. destruct (foldM_inv (divis_step_p (debug w) r) (fun _ s => s = st) (r + 1) rk st) as (s & Es & ->); [lia|reflexivity| |eauto].
    intros k s Hk ->. exists st. split; [|reflexivity]. unfold divis_step_p. now rewrite UD by lia. }
  rewrite EV. cbn [obind]. rewrite dassert_true; [| exact Har | exact Hdiv |].
  2:{ rewrite (allM_some _ (fun _ => true)). { f_equal. now apply forallb_forall. } intros a Ha. apply rng_in in Ha.
      rewrite (allM_some _ (fun _ => true)). { f_equal. now apply forallb_forall. } intros b Hb. apply rng_in in Hb. apply UD; lia. }
  cbn [obind]. destruct H1 as (R & Ri & C & Ci & -> & F1 & F2 & F3). cbn [sS sR sRi sC sCi].
  exists Ri, R, S, C, Ci, rk. split; [reflexivity|]. split; [exact U|]. split; [exact H2|exact F3].
Qed.
