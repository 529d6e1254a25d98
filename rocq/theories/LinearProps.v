(* C25-C28: FunctionalLinear.  [entry x row k u c] is component c of copy u of the k-th entry of the irreps (EntryProofs.v);
   [inside x k u c] says that these indices exist.  A weight array is the flat row-major list of its entries. *)
From Verif Require Import PyBase PermModel PermProofs IrrepsModel IrrepsProofs IrrepsProofs2 ArrayModel ArrayProofs ArrayOps RechunkProofs ArithProofs BlockProofs LeadModel LeadProofs StackProofs ActProofs EquivProofs EquivProofs2 SumR EntryProofs LinearModel LinearProofs ArrayProps ArrayProps2 ArrayProps3.
From Coq Require Import Reals Lra.
Open Scope nat_scope.

(* ---------- the constructor ---------- *)
Lemma in_enumerate {A} (l : list A) k a : In (k, a) (enumerate l) <-> nth_error l k = Some a.
Proof.
  unfold enumerate. split.
  - intros H. apply In_nth_error in H as [n E]. rewrite nth_error_combine in E. destruct (nth_error (seq 0 _) n) eqn:E1; [|discriminate]. destruct (nth_error l n) eqn:E2; [|discriminate]. injection E as -> ->.
    assert (n < length l) by (apply nth_error_Some; congruence). rewrite (nth_error_nth' _ 0) in E1 by (rewrite seq_length; assumption). rewrite seq_nth in E1 by assumption. injection E1 as <-. exact E2.
  - intros E. assert (H : k < length l) by (apply nth_error_Some; congruence). apply (nth_error_In _ k). rewrite nth_error_combine, E. rewrite (nth_error_nth' _ 0) by (rewrite seq_length; exact H). rewrite seq_nth by exact H. reflexivity.
Qed.
Lemma default_in x y i j : In (i, j) (default_instructions x y) <-> exists mi mo ir, nth_error x i = Some (mi, ir) /\ nth_error y j = Some (mo, ir).
Proof.
  unfold default_instructions. rewrite in_flat_map. split.
  - intros ([i' [mi a]] & Hi & H). apply in_flat_map in H as ([j' [mo b]] & Hj & H). destruct (irrep_eqb a b) eqn:E; [|destruct H]. destruct H as [H|[]]. injection H as -> ->.
    apply irrep_eqb_eq in E as ->. apply in_enumerate in Hi, Hj. exists mi, mo, b. auto.
  - intros (mi & mo & ir & Ei & Ej). exists (i, (mi, ir)). split; [apply in_enumerate, Ei|]. apply in_flat_map. exists (j, (mo, ir)). split; [apply in_enumerate, Ej|]. rewrite (proj2 (irrep_eqb_eq ir ir) eq_refl). left. reflexivity.
Qed.
Lemma nodup_flat_map {A B} (f : A -> list B) (l : list A) : NoDup l -> (forall a, In a l -> NoDup (f a)) -> (forall a a' b, In a l -> In a' l -> In b (f a) -> In b (f a') -> a = a') -> NoDup (flat_map f l).
Proof.
  induction 1 as [|a l Ha H IH]; intros H1 H2; [constructor|]. cbn [flat_map]. apply NoDup_app_i.
  - apply H1, in_eq.
  - apply IH; [intros; apply H1, in_cons; assumption|intros; eapply H2; eauto using in_cons].
  - intros b Hb Hb'. apply in_flat_map in Hb' as (a' & Ha' & Hb'). assert (a = a') by (eapply H2; eauto using in_eq, in_cons). congruence.
Qed.
Lemma nodup_enumerate {A} (l : list A) : NoDup (enumerate l).
Proof.
  assert (E : map fst (enumerate l) = seq 0 (length l)) by (unfold enumerate; rewrite combine_map_fst; [reflexivity|apply seq_length]).
  apply (NoDup_map_inv fst). rewrite E. apply seq_NoDup.
Qed.
Theorem C27_default_instructions x y : NoDup (default_instructions x y) /\
  forall i j, In (i, j) (default_instructions x y) <-> exists mi mo ir, nth_error x i = Some (mi, ir) /\ nth_error y j = Some (mo, ir).
Proof.
  split; [|exact (default_in x y)]. apply nodup_flat_map; [apply nodup_enumerate| |].
  - intros [i [mi a]] _. apply nodup_flat_map; [apply nodup_enumerate| |].
    + intros [j [mo b]] _. destruct (irrep_eqb a b); repeat constructor; intros [].
    + intros [j [mo b]] [j' [mo' b']] p Hj Hj' H H'. destruct (irrep_eqb a b); [|destruct H]. destruct (irrep_eqb a b'); [|destruct H']. destruct H as [<-|[]], H' as [H'|[]]. injection H' as ->. apply in_enumerate in Hj, Hj'. congruence.
  - intros [i [mi a]] [i' [mi' a']] p Hi Hi' H H'. apply in_flat_map in H as ([j [mo b]] & _ & H). apply in_flat_map in H' as ([j' [mo' b']] & _ & H').
    destruct (irrep_eqb a b); [|destruct H]. destruct (irrep_eqb a' b'); [|destruct H']. destruct H as [<-|[]], H' as [H'|[]]. injection H' as -> ->. apply in_enumerate in Hi, Hi'. congruence.
Qed.

(* the list of (input entry, output entry) pairs that is used *)
Definition connections (x y : irreps) (ins : option (list (nat * nat))) : list (nat * nat) := match ins with None => default_instructions x y | Some l => l end.
(* all connections join entries with the same irrep *)
Definition connects_equal (x y : irreps) (ins : option (list (nat * nat))) : Prop :=
  forall i j, In (i, j) (connections x y ins) -> exists mi mo ir, nth_error x i = Some (mi, ir) /\ nth_error y j = Some (mo, ir).

Lemma constructor_shape x y ins b pn gn L : functional_linear x y ins b pn gn = Ok L ->
  exists bs, biases_of b y = Ok bs /\ fl_in L = x /\ fl_out L = y /\
    fl_ins L = map (fun '(i, j) => LIns (Some i) j [mul_of x i; mul_of y j] (Rpower (sqrt (alpha x pn (connections x y ins) (i, j))) gn) (Rpower (sqrt (alpha x pn (connections x y ins) (i, j))) (1 - gn))) (connections x y ins)
      ++ flat_map (fun '(j, (b, m)) => if (b : bool) then [LIns None j [mi_dim m] 1%R 0%R] else []) (enumerate (combine bs y)) /\
    Forall (fun p => fst p < length x /\ snd p < length y) (connections x y ins) /\
    fl_mask L = flat_map (fun '(j, m) => repeat (existsb (fun o => (li_out o =? j) && negb (existsb (Nat.eqb 0) (li_shape o))) (fl_ins L)) (mi_dim m)) (enumerate y).
Proof.
  unfold functional_linear. fold (connections x y ins). destruct (forallb _ (connections x y ins)) eqn:F; cbn [negb]; [|discriminate]. destruct (biases_of b y) as [bs|]; [|discriminate]. cbn [bind]. intros E. injection E as <-. exists bs.
  cbn [fl_in fl_out fl_ins fl_mask]. split; [reflexivity|]. split; [reflexivity|]. split; [reflexivity|]. split; [reflexivity|]. split; [|reflexivity].
  apply Forall_forall. intros [i j] H. rewrite forallb_forall in F. specialize (F _ H). cbn in F. apply andb_true_iff in F as [F1 F2]. apply Nat.ltb_lt in F1, F2. auto.
Qed.
Lemma biases_scalar b y bs j m : biases_of b y = Ok bs -> nth_error (combine bs y) j = Some (true, m) -> snd m = Irrep 0 Even.
Proof.
  unfold biases_of. set (l := match b with NoBias => _ | _ => _ end). destruct (length l =? length y); [|discriminate]. cbn [assert bind]. destruct (forallb _ (combine l y)) eqn:F; [|discriminate]. cbn [assert bind]. intros E. injection E as <-. intros E.
  apply nth_error_In in E. rewrite forallb_forall in F. specialize (F _ E). destruct m as [mul ir]. cbn in F. rewrite orb_false_r in F. unfold ir_is_scalar in F. apply andb_true_iff in F as [F1 F2]. apply Nat.eqb_eq in F1.
  destruct ir as [l0 p]. cbn in *. subst l0. destruct p; [reflexivity|discriminate].
Qed.
Lemma constructor_ok x y ins b pn gn L : functional_linear x y ins b pn gn = Ok L -> connects_equal x y ins -> Forall (ins_ok eq x y) (fl_ins L).
Proof.
  intros E C. destruct (constructor_shape _ _ _ _ _ _ _ E) as (bs & Eb & _ & _ & -> & R & _). apply Forall_app. split.
  - apply Forall_map, Forall_forall. intros [i j] H. destruct (C i j H) as (mi & mo & ir & Ei & Ej). exists mo, ir. cbn [li_out li_in li_shape]. split; [exact Ej|]. exists mi, ir. split; [exact Ei|]. split; [reflexivity|].
    unfold mul_of. rewrite (nth_error_nth _ _ _ Ei), (nth_error_nth _ _ _ Ej). reflexivity.
  - apply Forall_forall. intros o Ho. apply in_flat_map in Ho as ([j [bb m]] & Hj & Ho). destruct bb; [|destruct Ho]. destruct Ho as [<-|[]]. apply in_enumerate in Hj. pose proof (biases_scalar _ _ _ _ _ Eb Hj) as S0.
    rewrite nth_error_combine in Hj. destruct (nth_error bs j); [|discriminate]. destruct (nth_error y j) as [[mo ir]|] eqn:Ej; [|discriminate]. injection Hj as -> <-. cbn [snd] in S0. subst ir.
    exists mo, (Irrep 0 Even). cbn [li_out li_in li_shape]. split; [exact Ej|]. split; [reflexivity|]. unfold mi_dim, ir_dim. cbn. f_equal. lia.
Qed.
Lemma default_connects x y : connects_equal x y None.
Proof. intros i j H. apply default_in, H. Qed.

(* ---------- C25 ---------- *)
Theorem C25_split_weights L w : num_weights L <= length w ->
  exists bs, split_weights L w = Ok bs /\ Forall2 (fun o b => length b = nprod (li_shape o)) (fl_ins L) bs /\ concat bs = firstn (num_weights L) w.
Proof. intros H. exact (split_from_ok (fl_ins L) 0 w H). Qed.
Theorem C25_too_few_weights L w : length w < num_weights L -> split_weights L w = Err TypeError.
Proof. intros H. apply split_from_short; [exact H|lia]. Qed.
(* the number of weights: mul_in * mul_out for each connection and mul for each bias *)
Theorem C25_num_weights x y ins b pn gn L : functional_linear x y ins b pn gn = Ok L ->
  exists bs, biases_of b y = Ok bs /\
    num_weights L = sum (map (fun '(i, j) => mul_of x i * mul_of y j) (connections x y ins)) + sum (map (fun '(b, m) => if (b : bool) then fst m else 0) (combine bs y)).
Proof.
  intros E. destruct (constructor_shape _ _ _ _ _ _ _ E) as (bs & Eb & _ & _ & Ei & _). exists bs. split; [exact Eb|]. unfold num_weights. rewrite Ei, map_app.
  assert (SA : forall a c, sum (a ++ c) = sum a + sum c) by (clear; induction a as [|v a IH]; intros c; [reflexivity|]; cbn [app]; unfold sum in *; cbn [fold_right]; rewrite IH; lia).
  rewrite SA, map_map. f_equal.
  - f_equal. apply map_ext. intros [i j]. cbn. lia.
  - assert (Q : forall j m, nth_error (combine bs y) j = Some (true, m) -> mi_dim m = fst m) by (intros j m Ej; unfold mi_dim; rewrite (biases_scalar _ _ _ _ _ Eb Ej); unfold ir_dim; cbn; lia).
    clear -SA Q. unfold enumerate. revert Q. generalize (combine bs y) as l. intros l Q. assert (G : forall l k, (forall j m, nth_error l j = Some (true, m) -> mi_dim m = fst m) ->
      sum (map (fun o => nprod (li_shape o)) (flat_map (fun '(j, (b, m)) => if (b : bool) then [LIns None j [mi_dim m] 1%R 0%R] else []) (combine (seq k (length l)) l))) = sum (map (fun '(b, m) => if (b : bool) then fst m else 0) l)).
    { clear -SA. induction l as [|[b m] l IH]; intros k Q; [reflexivity|]. cbn [length seq combine flat_map map]. rewrite map_app, SA, IH by (intros j m' E; exact (Q (S j) m' E)).
      change (sum (?a :: ?r)) with (a + sum r). f_equal. destruct b; [|reflexivity]. cbn. rewrite (Q 0 m eq_refl). lia. }
    apply G, Q.
Qed.
(* what a call computes: entry (v, c) of the j-th output is the sum of the paths into j *)
Theorem C25_call_value L ws x y ins b pn gn : functional_linear x y ins b pn gn = Ok L -> connects_equal x y ins -> forall a, coherent a -> simplify (irr a) = simplify x ->
  Forall2 (fun o w => length w = nprod (li_shape o)) (fl_ins L) ws ->
  exists rows, yields (linear_call L (map (fun w _ => w) ws) a) y (lead a) rows /\
    forall i j v c, valid (lead a) i -> inside y j v c ->
      entry y (rows i) j v c = lsum (combine (fl_ins L) ws) (fun '(o, w) =>
        if li_out o =? j then match li_in o with
          | Some k => (li_pw o * rsum (mul_of x k) (fun u => nth (u * mul_of y j + v) w 0 * entry x (arr a i) k u c))%R
          | None => (li_pw o * nth v w 0)%R end
        else 0%R).
Proof.
  intros E C a Ha Es Hw. pose proof (constructor_ok _ _ _ _ _ _ _ E C) as Hins. destruct (constructor_shape _ _ _ _ _ _ _ E) as (bs & _ & Ex & Ey & _).
  eexists. split.
  - rewrite <- Ey. apply linear_call_yields; [exact Ha|rewrite Ex; exact Es|rewrite Ex, Ey; apply ins_ok_dim_all, Hins|]. clear -Hw. induction Hw; constructor; auto.
  - intros i j v c Hi Hin. cbv beta. rewrite Ex, Ey. rewrite entry_rowof by exact Hin. unfold layer_entry. rewrite map_map. rewrite map_id. apply lsum_ext. intros [o w] How. destruct (Nat.eqb_spec (li_out o) j) as [Eo|]; [|reflexivity].
    apply in_combine_l in How. rewrite Forall_forall in Hins. destruct (Hins o How) as (mo & ib & Ej & Ho). unfold path_entry. destruct (li_in o) as [k|]; [|reflexivity]. destruct Ho as (mi & ia & Ek & _ & Sh). rewrite Sh. cbn [nth].
    unfold mul_of. rewrite (nth_error_nth _ _ _ Ek). rewrite <- Eo, (nth_error_nth _ _ _ Ej). reflexivity.
Qed.
(* positions excluded by output_mask are always zero *)
Theorem C25_output_mask x y ins b pn gn L ws a j v c : functional_linear x y ins b pn gn = Ok L -> connects_equal x y ins -> coherent a -> simplify (irr a) = simplify x ->
  Forall2 (fun o w => length w = nprod (li_shape o)) (fl_ins L) ws -> inside y j v c ->
  nth (dim (firstn j y) + (v * ir_dim (snd (nth j y (0, Irrep 0 Even))) + c)) (fl_mask L) true = false ->
  exists z, linear_call L (map (fun w _ => w) ws) a = Ok z /\ forall i, valid (lead a) i -> entry y (arr z i) j v c = 0%R.
Proof.
  intros E C Ha Es Hw Hin Hm. destruct (C25_call_value L ws x y ins b pn gn E C a Ha Es Hw) as (rows & (z & Ez & _ & _ & _ & Ea) & V). exists z. split; [exact Ez|]. intros i Hi. rewrite Ea, V by assumption.
  pose proof (constructor_ok _ _ _ _ _ _ _ E C) as Hins. destruct (constructor_shape _ _ _ _ _ _ _ E) as (_ & _ & _ & _ & _ & _ & Mk). rewrite Mk in Hm. clear Mk.
  set (f := fun j => existsb (fun o => (li_out o =? j) && negb (existsb (Nat.eqb 0) (li_shape o))) (fl_ins L)) in *.
  assert (Q : f j = false).
  { destruct Hin as (mo & ib & Ej & Hv & Hc). rewrite (nth_error_nth _ _ _ Ej) in Hm. cbn [snd] in Hm. revert Hm. change (fun '(j, m) => repeat _ (mi_dim m)) with (fun p : nat * mulirrep => let '(j, m) := p in repeat (f j) (mi_dim m)). clear -Ej Hv Hc. unfold enumerate.
    assert (G : forall y k j, nth_error y j = Some (mo, ib) -> nth (dim (firstn j y) + (v * ir_dim ib + c)) (flat_map (fun p : nat * mulirrep => let '(j, m) := p in repeat (f j) (mi_dim m)) (combine (seq k (length y)) y)) true = f (k + j)).
    { clear -Hv Hc. induction y as [|m y IH]; intros k [|j] Ej; try discriminate; cbn [length seq combine flat_map].
      - injection Ej as ->. cbn [firstn]. change (dim []) with 0. assert (B : v * ir_dim ib + c < mi_dim (mo, ib)) by (unfold mi_dim; cbn [fst snd]; nia). rewrite app_nth1 by (rewrite repeat_length; exact B). cbn [Nat.add]. rewrite Nat.add_0_r.
        assert (RN : forall A (a d : A) n k, k < n -> nth k (repeat a n) d = a) by (clear; intros A a d n; induction n as [|n IH]; intros [|k] H; try lia; [reflexivity|]; cbn; apply IH; lia). apply RN, B.
      - cbn [firstn]. rewrite dim_cons. rewrite app_nth2 by (rewrite repeat_length; lia). rewrite repeat_length. replace (mi_dim m + dim (firstn j y) + (v * ir_dim ib + c) - mi_dim m) with (dim (firstn j y) + (v * ir_dim ib + c)) by lia.
        rewrite IH by exact Ej. f_equal. lia. }
    rewrite (G y 0 j Ej). auto. }
  apply lsum_zero. intros [o w] How. apply in_combine_l in How. destruct (Nat.eqb_spec (li_out o) j) as [Eo|]; [|reflexivity].
  assert (Z : existsb (Nat.eqb 0) (li_shape o) = true).
  { unfold f in Q. destruct (existsb (Nat.eqb 0) (li_shape o)) eqn:Z; [reflexivity|]. exfalso. assert (T : existsb (fun o => (li_out o =? j) && negb (existsb (Nat.eqb 0) (li_shape o))) (fl_ins L) = true) by (apply existsb_exists; exists o; split; [exact How|]; rewrite Eo, Nat.eqb_refl, Z; reflexivity). congruence. }
  rewrite Forall_forall in Hins. destruct (Hins o How) as (mo & ib & Ej & Ho). destruct Hin as (mo' & ib' & Ej' & Hv & Hc). rewrite Eo, Ej' in Ej. injection Ej as <- <-. destruct (li_in o) as [k|].
  - destruct Ho as (mi & ia & Ek & _ & Sh). rewrite Sh in Z. cbn [existsb] in Z. rewrite orb_false_r in Z. apply orb_true_iff in Z as [Z|Z]; apply Nat.eqb_eq in Z; [|lia]. unfold mul_of at 1. rewrite (nth_error_nth _ _ _ Ek). cbn [fst]. rewrite <- Z. cbn [rsum]. lra.
  - destruct Ho as [-> Sh]. rewrite Sh in Z. cbn [existsb] in Z. rewrite orb_false_r in Z. apply Nat.eqb_eq in Z. lia.
Qed.
Example C25_nonvacuous : exists L, functional_linear [(2, Irrep 0 Even); (1, Irrep 1 Odd)] [(3, Irrep 1 Odd); (1, Irrep 0 Even)] None (BoolBias true) 0%R 0%R = Ok L /\ num_weights L = 6 /\ length (fl_ins L) = 3.
Proof. eexists. split; [reflexivity|]. split; reflexivity. Qed.

(* ---------- C26 ---------- *)
(* x.array @ matrix(ws) is the output: [vecmat] is the row vector times matrix product *)
Theorem C26_matrix x y ins pn gn L ws a : functional_linear x y ins NoBias pn gn = Ok L -> connects_equal x y ins -> coherent a -> simplify (irr a) = simplify x ->
  Forall2 (fun o w => length w = nprod (li_shape o)) (fl_ins L) ws ->
  exists M, linear_matrix L ws = Ok M /\ length M = dim x /\ yields (linear_call L (map (fun w _ => w) ws) a) y (lead a) (fun i => vecmat (dim y) (arr a i) M).
Proof.
  intros E C Ha Es Hw. pose proof (constructor_ok _ _ _ _ _ _ _ E C) as Hins. destruct (constructor_shape _ _ _ _ _ _ _ E) as (bs & Eb & Ex & Ey & Ei & _).
  assert (N : Forall (fun o => li_in o <> None) (fl_ins L)).
  { rewrite Ei. apply Forall_app. split; [apply Forall_map, Forall_forall; intros [i j] _; discriminate|]. apply Forall_forall. intros o Ho. apply in_flat_map in Ho as ([j [bb m]] & Hj & Ho). apply in_enumerate in Hj. apply nth_error_In, in_combine_l in Hj.
    unfold biases_of in Eb. rewrite repeat_length, Nat.eqb_refl in Eb. cbn [assert bind] in Eb. destruct (forallb _ _); [|discriminate]. cbn [assert bind] in Eb. injection Eb as <-. apply repeat_spec in Hj as ->. destruct Ho. }
  rewrite <- Ex, <- Ey in Hins. destruct (matrix_ok L ws (ins_ok_dim_all _ _ _ Hins) N) as (M & EM & LM & _). exists M. split; [exact EM|]. split; [rewrite LM, Ex; reflexivity|]. rewrite <- Ey.
  eapply yields_ext; [|apply linear_call_yields; [exact Ha|rewrite Ex; exact Es|apply ins_ok_dim_all, Hins|clear -Hw; induction Hw; constructor; auto]].
  intros i Hi. cbv beta. rewrite map_map, map_id. symmetry. apply matrix_represents; [apply ins_ok_dim_all, Hins|exact N|exact EM|]. rewrite (proj1 Ha i Hi), Ex. apply dim_of_simplify, Es.
Qed.
Theorem C26_matrix_with_bias_rejected x y ins b pn gn L ws : functional_linear x y ins b pn gn = Ok L -> connects_equal x y ins -> length ws = length (fl_ins L) -> Exists (fun o => li_in o = None) (fl_ins L) -> linear_matrix L ws = Err AssertionError.
Proof.
  intros E C Lw Hb. pose proof (constructor_ok _ _ _ _ _ _ _ E C) as Hins. destruct (constructor_shape _ _ _ _ _ _ _ E) as (bs & Eb & Ex & Ey & _). rewrite <- Ex, <- Ey in Hins. unfold linear_matrix. set (M0 := map _ _). clearbody M0.
  assert (Er : forall ps e, fold_left (fun M ow => let! M := M in matrix_step L M ow) ps (Err e) = Err e) by (clear; induction ps as [|p ps IH]; intros e; [reflexivity|]; cbn [fold_left bind]; apply IH).
  clear E C Eb Ex Ey. revert ws Lw M0 Hins Hb. generalize (fl_ins L) as l. induction l as [|o l IH]; intros ws Lw M0 Hins Hb; [inversion Hb|]. destruct ws as [|w ws]; [discriminate|]. cbn [combine fold_left bind].
  inversion Hins as [|? ? Ho Hl]; subst. destruct (li_in o) as [k|] eqn:Ek.
  - destruct (matrix_fold L [(o, w)]) with (M0 := M0) as (M & EM & _); [repeat constructor; [apply ins_ok_dim, Ho|cbn; congruence]|]. cbn [fold_left bind] in EM. rewrite EM. apply IH; [cbn in Lw; lia|exact Hl|]. inversion Hb; subst; [congruence|assumption].
  - unfold matrix_step at 2. rewrite Ek. apply Er.
Qed.
(* the layer is linear in the input and in the weights *)
Theorem C26_linear_in_input x y ins pn gn L ws a b r : functional_linear x y ins NoBias pn gn = Ok L -> connects_equal x y ins -> coherent a -> coherent b -> irr b = irr a -> lead b = lead a -> simplify (irr a) = simplify x ->
  Forall2 (fun o w => length w = nprod (li_shape o)) (fl_ins L) ws ->
  forall s, coherent s -> irr s = irr a -> lead s = lead a -> (forall i, valid (lead a) i -> arr s i = zipR Rplus (map (Rmult r) (arr a i)) (arr b i)) ->
  exists za zb zs, linear_call L (map (fun w _ => w) ws) a = Ok za /\ linear_call L (map (fun w _ => w) ws) b = Ok zb /\ linear_call L (map (fun w _ => w) ws) s = Ok zs /\
    forall i, valid (lead a) i -> arr zs i = zipR Rplus (map (Rmult r) (arr za i)) (arr zb i).
Proof.
  intros E C Ha Hb Eb Lb Es Hw s Hs Ei Ls Ea. destruct (C26_matrix _ _ _ _ _ _ _ _ E C Ha Es Hw) as (M & EM & LM & (za & Ez & _ & _ & _ & Va)).
  destruct (C26_matrix _ _ _ _ _ _ _ b E C Hb ltac:(rewrite Eb; exact Es) Hw) as (M1 & EM1 & _ & (zb & Ezb & _ & _ & _ & Vb)). rewrite EM in EM1. injection EM1 as <-.
  destruct (C26_matrix _ _ _ _ _ _ _ s E C Hs ltac:(rewrite Ei; exact Es) Hw) as (M1 & EM1 & _ & (zs & Ezs & _ & _ & _ & Vs)). rewrite EM in EM1. injection EM1 as <-.
  exists za, zb, zs. split; [exact Ez|]. split; [exact Ezb|]. split; [exact Ezs|]. intros i Hi. rewrite Va, Vb, Vs by (rewrite ?Lb, ?Ls; exact Hi). rewrite Ea by exact Hi.
  pose proof (proj1 Ha i Hi) as L1. pose proof (proj1 Hb i) as L2. rewrite Lb, Eb in L2. specialize (L2 Hi). unfold vecmat.
  assert (L3 : length (zipR Rplus (map (Rmult r) (arr a i)) (arr b i)) = dim (irr a)) by (unfold zipR; rewrite map_length, combine_length, map_length, L1, L2; lia). rewrite L1, L2, L3.
  transitivity (tab (dim y) (fun k => r * rsum (dim (irr a)) (fun a0 => nth a0 (arr a i) 0 * mat_at M a0 k) + rsum (dim (irr a)) (fun a0 => nth a0 (arr b i) 0 * mat_at M a0 k))%R).
  - apply tab_ext. intros k Hk. rewrite <- rsum_scal, <- rsum_plus. apply rsum_ext. intros p Hp. rewrite nth_zipR by (rewrite ?map_length; lia). rewrite (nth_map_in _ _ _ 0%R) by lia. lra.
  - unfold tab. generalize (seq 0 (dim y)). intros l. induction l as [|k l IH]; [reflexivity|]. cbn [map]. rewrite zipR_cons. f_equal. exact IH.
Qed.
Theorem C26_linear_in_weights x y ins b pn gn L ws ws' r a : functional_linear x y ins b pn gn = Ok L -> connects_equal x y ins -> coherent a -> simplify (irr a) = simplify x ->
  Forall2 (fun o w => length w = nprod (li_shape o)) (fl_ins L) ws -> Forall2 (fun o w => length w = nprod (li_shape o)) (fl_ins L) ws' ->
  exists z z' zs, linear_call L (map (fun w _ => w) ws) a = Ok z /\ linear_call L (map (fun w _ => w) ws') a = Ok z' /\
    linear_call L (map (fun w _ => w) (map (fun '(w, w') => zipR Rplus (map (Rmult r) w) w') (combine ws ws'))) a = Ok zs /\
    forall i j v c, valid (lead a) i -> inside y j v c -> entry y (arr zs i) j v c = (r * entry y (arr z i) j v c + entry y (arr z' i) j v c)%R.
Proof.
  intros E C Ha Es Hw Hw'. set (wc := map _ (combine ws ws')).
  assert (Hc : Forall2 (fun o w => length w = nprod (li_shape o)) (fl_ins L) wc).
  { unfold wc. clear -Hw Hw'. revert ws' Hw'. induction Hw as [|o w l ws H Hw IH]; intros ws' Hw'; inversion Hw'; subst; [constructor|]. cbn [combine map]. constructor; [|apply IH; assumption]. unfold zipR. rewrite map_length, combine_length, map_length. lia. }
  destruct (C25_call_value L ws x y ins b pn gn E C a Ha Es Hw) as (r1 & (z & Ez & _ & _ & _ & Ea) & V). destruct (C25_call_value L ws' x y ins b pn gn E C a Ha Es Hw') as (r2 & (z' & Ez' & _ & _ & _ & Ea') & V').
  destruct (C25_call_value L wc x y ins b pn gn E C a Ha Es Hc) as (r3 & (zs & Ezs & _ & _ & _ & Eas) & Vs). exists z, z', zs. split; [exact Ez|]. split; [exact Ez'|]. split; [exact Ezs|].
  intros i j v c Hi Hin. rewrite Ea, Ea', Eas, V, V', Vs by assumption. pose proof (constructor_ok _ _ _ _ _ _ _ E C) as Hins. unfold wc. clear -Hw Hw' Hins Hin. revert ws ws' Hw Hw'. induction (fl_ins L) as [|o l IH]; intros ws ws' Hw Hw'; inversion Hw; inversion Hw'; subst; [unfold lsum; cbn; lra|].
  inversion Hins as [|? ? Ho Hl]; subst. cbn [combine map]. rewrite !lsum_cons, IH by assumption. rewrite Rmult_plus_distr_l. rewrite <- !Rplus_assoc. match goal with |- (?p + (?q + ?s))%R = _ => idtac | _ => idtac end.
  match goal with |- (?p + ?q + ?s = ?t + ?q + ?u + ?s)%R => assert (G : p = (t + u)%R); [|rewrite G; ring] | |- _ => idtac end.
  destruct (Nat.eqb_spec (li_out o) j) as [Eo|]; [|lra]. destruct Ho as (mo & ib & Ej & Ho). destruct Hin as (mo' & ib' & Ej' & Hv & Hc). rewrite Eo, Ej' in Ej. injection Ej as <- <-. unfold mul_of. rewrite (nth_error_nth _ _ _ Ej'). cbn [fst].
  destruct (li_in o) as [k|].
  - destruct Ho as (mi & ia & Ek & _ & Sh). rewrite (nth_error_nth _ _ _ Ek). cbn [fst]. rewrite Sh in *. rewrite <- Rmult_assoc, (Rmult_comm r), Rmult_assoc, <- Rmult_plus_distr_l. f_equal. rewrite <- rsum_scal, <- rsum_plus. apply rsum_ext. intros u Hu.
    match goal with H1 : length ?w = nprod [mi; mo'], H2 : length ?w' = nprod [mi; mo'] |- context [zipR Rplus (map (Rmult r) ?w) ?w'] => assert (u * mo' + v < length w) by (rewrite H1; cbn; nia); assert (length w = length w') by (rewrite H1, H2; reflexivity) end.
    rewrite nth_zipR by (rewrite map_length; assumption). rewrite (nth_map_in _ _ _ 0%R) by assumption. lra.
  - destruct Ho as [-> Sh]. rewrite Sh in *.
    match goal with H1 : length ?w = nprod [mo'], H2 : length ?w' = nprod [mo'] |- context [zipR Rplus (map (Rmult r) ?w) ?w'] => assert (v < length w) by (rewrite H1; cbn; lia); assert (length w = length w') by (rewrite H1, H2; reflexivity) end.
    rewrite nth_zipR by (rewrite map_length; assumption). rewrite (nth_map_in _ _ _ 0%R) by assumption. lra.
Qed.

(* ---------- C27 ---------- *)
(* the layer built by the constructor commutes with every representation that acts trivially on 0e (needed only for biases) *)
Theorem C27_equivariant D x y ins b pn gn L ws a : rep_ok D -> scalar_trivial D -> functional_linear x y ins b pn gn = Ok L -> connects_equal x y ins -> coherent a -> simplify (irr a) = simplify x ->
  Forall2 (fun o w => forall i, valid (lead a) i -> length (w i) = nprod (li_shape o)) (fl_ins L) ws ->
  agree (let! z := linear_call L ws a in transform D z) (let! a' := transform D a in linear_call L ws a').
Proof.
  intros HD HS E C Ha Es Hw. pose proof (constructor_ok _ _ _ _ _ _ _ E C) as Hins. destruct (constructor_shape _ _ _ _ _ _ _ E) as (bs & _ & Ex & Ey & _).
  apply linear_equivariant; auto; rewrite ?Ex, ?Ey; assumption.
Qed.
(* with the default instructions no side condition on the connections is needed *)
Corollary C27_default_equivariant D x y b pn gn L ws a : rep_ok D -> scalar_trivial D -> functional_linear x y None b pn gn = Ok L -> coherent a -> simplify (irr a) = simplify x ->
  Forall2 (fun o w => forall i, valid (lead a) i -> length (w i) = nprod (li_shape o)) (fl_ins L) ws ->
  agree (let! z := linear_call L ws a in transform D z) (let! a' := transform D a in linear_call L ws a').
Proof. intros HD HS E. apply (C27_equivariant D x y None b pn gn L); auto using default_connects. Qed.
(* the biases argument: what is accepted, and what it means *)
Theorem C27_biases x y b pn gn : (exists L, functional_linear x y None b pn gn = Ok L) <->
  match b with ListBias l => length l = length y /\ forall j m, nth_error l j = Some true -> nth_error y j = Some m -> snd m = Irrep 0 Even | _ => True end.
Proof.
  assert (F : forallb (fun '(i, j) => (i <? length x) && (j <? length y)) (default_instructions x y) = true).
  { apply forallb_forall. intros [i j] H. apply default_in in H as (mi & mo & ir & Ei & Ej). apply andb_true_iff. split; apply Nat.ltb_lt; apply nth_error_Some; congruence. }
  unfold functional_linear. rewrite F. cbn [negb].
  assert (Sc : forall ir, ir_is_scalar ir = true <-> ir = Irrep 0 Even).
  { intros [l p]. unfold ir_is_scalar. cbn. split; [intros H; apply andb_true_iff in H as [H1 H2]; apply Nat.eqb_eq in H1 as ->; destruct p; [reflexivity|discriminate]|]. intros H. injection H as -> ->. reflexivity. }
  assert (G : (exists bs, biases_of b y = Ok bs) <-> match b with ListBias l => length l = length y /\ forall j m, nth_error l j = Some true -> nth_error y j = Some m -> snd m = Irrep 0 Even | _ => True end).
  { unfold biases_of. destruct b as [|b|l].
    - split; [intros _; exact I|intros _]. rewrite repeat_length, Nat.eqb_refl. cbn [assert bind]. eexists. assert (T : forallb (fun '(b, (_, ir)) => ir_is_scalar ir || negb b) (combine (repeat false (length y)) y) = true) by (apply forallb_forall; intros [b [m ir]] H; apply in_combine_l, repeat_spec in H as ->; apply orb_true_r). rewrite T. reflexivity.
    - split; [intros _; exact I|intros _]. rewrite map_length, Nat.eqb_refl. cbn [assert bind]. eexists.
      match goal with |- context [forallb ?f ?l] => assert (T : forallb f l = true) end; [|rewrite T; reflexivity].
      clear. induction y as [|[m ir] y IH]; [reflexivity|]. cbn. rewrite IH, andb_true_r. destruct (ir_is_scalar ir); [reflexivity|]. rewrite andb_false_r. reflexivity.
    - split.
      + intros [bs H]. destruct (Nat.eqb_spec (length l) (length y)) as [El|]; [|discriminate]. split; [exact El|]. cbn [assert bind] in H. clear F. destruct (forallb _ (combine l y)) eqn:T; [|discriminate]. rewrite forallb_forall in T. intros j [m ir] E1 E2. cbn [snd].
        specialize (T (true, (m, ir))). cbn in T. rewrite orb_false_r in T. apply Sc, T. apply (nth_error_In _ j). rewrite nth_error_combine, E1, E2. reflexivity.
      + intros [El H]. apply Nat.eqb_eq in El. rewrite El. cbn [assert bind]. exists l. match goal with |- context [forallb ?f ?l] => assert (T : forallb f l = true) end; [|rewrite T; reflexivity].
        apply forallb_forall. intros [[|] [m ir]] Hin; [|apply orb_true_r]. apply In_nth_error in Hin as [j Hj]. rewrite nth_error_combine in Hj. destruct (nth_error l j) as [[|]|] eqn:E1; try discriminate; destruct (nth_error y j) as [p|] eqn:E2; try discriminate. injection Hj as ->. rewrite (proj2 (Sc ir)); [reflexivity|]. apply (H j _ E1 E2). }
  rewrite <- G. destruct (biases_of b y) as [bs|e]; cbn [bind]; split; intros [L H]; try discriminate; eexists; reflexivity.
Qed.
(* a bias is a free offset of exactly the even scalar outputs requested, and those outputs only *)
Theorem C27_bias_instructions x y b pn gn L : functional_linear x y None b pn gn = Ok L ->
  forall o, In o (fl_ins L) -> li_in o = None -> exists mo, nth_error y (li_out o) = Some (mo, Irrep 0 Even) /\ li_shape o = [mo] /\ li_pw o = 1%R /\
    match b with NoBias => False | BoolBias c => c = true | ListBias l => nth_error l (li_out o) = Some true end.
Proof.
  intros E o Ho N. destruct (constructor_shape _ _ _ _ _ _ _ E) as (bs & Eb & _ & _ & Ei & _). rewrite Ei in Ho. apply in_app_iff in Ho as [Ho|Ho]; [apply in_map_iff in Ho as ([i j] & <- & _); discriminate|].
  apply in_flat_map in Ho as ([j [bb m]] & Hj & Ho). destruct bb; [|destruct Ho]. destruct Ho as [<-|[]]. apply in_enumerate in Hj. pose proof (biases_scalar _ _ _ _ _ Eb Hj) as S0. rewrite nth_error_combine in Hj.
  destruct (nth_error bs j) as [[|]|] eqn:Ebj; try discriminate; destruct (nth_error y j) as [[mo ir]|] eqn:Ej; try discriminate. injection Hj as <-. cbn [snd] in S0. subst ir. exists mo. cbn [li_out li_shape li_pw]. split; [exact Ej|]. split; [unfold mi_dim, ir_dim; cbn; f_equal; lia|]. split; [reflexivity|].
  unfold biases_of in Eb. destruct b as [|c|l].
  - rewrite repeat_length, Nat.eqb_refl in Eb. cbn [assert bind] in Eb. destruct (forallb _ _); [|discriminate]. injection Eb as <-. apply nth_error_In, repeat_spec in Ebj. discriminate.
  - rewrite map_length, Nat.eqb_refl in Eb. cbn [assert bind] in Eb. destruct (forallb _ _); [|discriminate]. injection Eb as <-. rewrite nth_error_map, Ej in Ebj. cbn in Ebj. injection Ebj as Ebj. apply andb_true_iff in Ebj as [-> _]. reflexivity.
  - destruct (length l =? length y); [|discriminate]. cbn [assert bind] in Eb. destruct (forallb _ (combine l y)); [|discriminate]. injection Eb as <-. exact Ebj.
Qed.

(* ---------- C28 ---------- *)
(* the connections into the output j *)
Definition into (x y : irreps) (ins : option (list (nat * nat))) (j : nat) : list (nat * nat) := filter (fun o => snd o =? j) (connections x y ins).

Lemma npow_pos n p : 0 < n -> (0 < npow n p)%R.
Proof. intros H. unfold npow. destruct (Nat.eqb_spec n 0); [lia|]. apply exp_pos. Qed.
Lemma npow_nonneg n p : (0 <= npow n p)%R.
Proof. unfold npow. destruct (n =? 0); [destruct (Req_EM_T p 0); lra|]. left. apply exp_pos. Qed.
Lemma npow_split n p : 0 < n -> (npow n p * npow n (1 - p) = INR n)%R.
Proof.
  intros H. unfold npow. destruct (Nat.eqb_spec n 0); [lia|]. rewrite <- Rpower_plus. replace (p + (1 - p))%R with 1%R by lra. apply Rpower_1, lt_0_INR, H.
Qed.
Lemma lsum_map_fold {A} (l : list A) f : fold_right Rplus 0%R (map f l) = lsum l f.
Proof. induction l as [|a l IH]; [reflexivity|]. rewrite lsum_cons. cbn [map fold_right]. rewrite IH. reflexivity. Qed.
Lemma lsum_pos {A} (l : list A) f a : (forall a, In a l -> (0 <= f a)%R) -> In a l -> (0 < f a)%R -> (0 < lsum l f)%R.
Proof.
  induction l as [|b l IH]; intros H Ha P; [destruct Ha|]. rewrite lsum_cons. pose proof (lsum_nonneg l f (fun b Hb => H b (or_intror Hb))). destruct Ha as [->|Ha]; [lra|]. pose proof (H b (or_introl eq_refl)). pose proof (IH (fun b Hb => H b (or_intror Hb)) Ha P). lra.
Qed.
Lemma sqrt_power a g : (0 < a)%R -> (Rpower (sqrt a) g * Rpower (sqrt a) (1 - g) = sqrt a)%R.
Proof. intros H. rewrite <- Rpower_plus. replace (g + (1 - g))%R with 1%R by lra. apply Rpower_1, sqrt_lt_R0, H. Qed.
Lemma alpha_pos x pn ins t : (0 < alpha x pn ins t)%R.
Proof. unfold alpha. destruct (Rlt_dec 0 _) as [P|]; [|lra]. unfold Rdiv. rewrite Rmult_1_l. apply Rinv_0_lt_compat, P. Qed.

(* the sum over the paths into output j of mul_in * (path_weight * weight_std)^2 is 1 for every gradient normalisation and every
   path normalisation in [0, 1], as soon as some connected input is not empty.  At path normalisation 1 ("path") no connected
   input may be empty: see C28_empty_input_refuted *)
Theorem C28_sum_of_squares x y ins b pn gn L j : functional_linear x y ins b pn gn = Ok L -> (0 <= pn <= 1)%R -> (exists i, In (i, j) (connections x y ins) /\ 0 < mul_of x i) ->
  (pn = 1%R -> forall i, In (i, j) (connections x y ins) -> 0 < mul_of x i) ->
  lsum (fl_ins L) (fun o => if li_out o =? j then match li_in o with Some i => INR (mul_of x i) * (li_pw o * li_std o) ^ 2 | None => 0 end else 0)%R = 1%R.
Proof.
  intros E [P0 P1] (i0 & Hi0 & M0) H1. destruct (constructor_shape _ _ _ _ _ _ _ E) as (bs & _ & _ & _ & -> & _). set (C := connections x y ins) in *. rewrite lsum_app.
  rewrite (lsum_zero (flat_map _ _)). 2:{ intros o Ho. apply in_flat_map in Ho as ([k [bb m]] & _ & Ho). destruct bb; [|destruct Ho]. destruct Ho as [<-|[]]. cbn [li_out li_in]. destruct (k =? j); reflexivity. }
  rewrite Rplus_0_r, lsum_map. set (S := lsum (filter (fun o => snd o =? j) C) (fun o => npow (mul_of x (fst o)) (1 - pn))).
  assert (SP : (0 < S)%R). { apply (lsum_pos _ _ (i0, j)); [intros; apply npow_nonneg|apply filter_In; cbn; rewrite Nat.eqb_refl; auto|apply npow_pos, M0]. }
  assert (G : forall o, In o C -> snd o = j -> (INR (mul_of x (fst o)) * alpha x pn C o = npow (mul_of x (fst o)) (1 - pn) / S)%R).
  { intros [i k] Ho. cbn [fst snd]. intros ->. unfold alpha. cbn [fst snd]. rewrite lsum_map_fold. fold S. destruct (Nat.eq_dec (mul_of x i) 0) as [Z|Z].
    - rewrite Z. cbn [INR]. unfold npow. rewrite Nat.eqb_refl. destruct (Req_EM_T (1 - pn) 0) as [Q|]; [|lra]. exfalso. assert (pn = 1%R) as Q' by lra. specialize (H1 Q' i Ho). lia.
    - assert (Hm : 0 < mul_of x i) by lia. pose proof (npow_pos (mul_of x i) pn Hm) as P. destruct (Rlt_dec 0 _) as [_|N]; [|exfalso; apply N, Rmult_lt_0_compat; assumption].
      rewrite <- (npow_split (mul_of x i) pn Hm) at 1. field. split; lra. }
  transitivity (lsum C (fun o => if snd o =? j then npow (mul_of x (fst o)) (1 - pn) / S else 0)%R).
  - apply lsum_ext. intros [i k] Ho. cbn [li_out li_in li_pw li_std fst snd]. destruct (Nat.eqb_spec k j) as [->|]; [|reflexivity]. rewrite sqrt_power by apply alpha_pos. rewrite pow2_sqrt by (left; apply alpha_pos). apply (G (i, j) Ho eq_refl).
  - rewrite <- (lsum_filter (fun o => snd o =? j) C). unfold Rdiv. rewrite lsum_scal_r. fold S. field. lra.
Qed.

(* an expectation: a linear functional on random variables *)
Record expectation (O : Type) (Ex : (O -> R) -> R) : Prop := {
  Ex_ext : forall f g, (forall w, f w = g w) -> Ex f = Ex g;
  Ex_plus : forall f g, Ex (fun w => f w + g w)%R = (Ex f + Ex g)%R;
  Ex_scal : forall r f, Ex (fun w => r * f w)%R = (r * Ex f)%R }.
Lemma Ex_rsum {O} (Ex : (O -> R) -> R) (H : expectation O Ex) n f : Ex (fun w => rsum n (fun k => f k w)) = rsum n (fun k => Ex (f k)).
Proof.
  induction n as [|n IH]; [|cbn [rsum]; rewrite (Ex_plus _ _ H), IH; reflexivity]. cbn [rsum]. rewrite (Ex_ext _ _ H _ (fun w => 0 * 0)%R) by (intros; lra). rewrite (Ex_scal _ _ H). lra.
Qed.

(* random inputs and weights: the products weight * input of different paths or copies are uncorrelated, and have the variance
   weight_std^2 (unit variance inputs, weights of standard deviation weight_std); biases are initialised to 0 (weight_std = 0).
   Then every component of an output with a non-empty incoming path has variance one. *)
Theorem C28_unit_variance (O : Type) (Ex : (O -> R) -> R) x y ins b pn gn L j v c (ws : O -> list (list R)) (a z : O -> iarray) i :
  expectation O Ex -> functional_linear x y ins b pn gn = Ok L -> connects_equal x y ins -> (0 <= pn <= 1)%R -> (exists i, In (i, j) (connections x y ins) /\ 0 < mul_of x i) ->
  (pn = 1%R -> forall i, In (i, j) (connections x y ins) -> 0 < mul_of x i) -> inside y j v c ->
  (forall w, coherent (a w) /\ simplify (irr (a w)) = simplify x /\ valid (lead (a w)) i /\ Forall2 (fun o q => length q = nprod (li_shape o)) (fl_ins L) (ws w) /\ linear_call L (map (fun q _ => q) (ws w)) (a w) = Ok (z w)) ->
  (forall p o, nth_error (fl_ins L) p = Some o -> li_in o = None -> forall w, Forall (eq 0%R) (nth p (ws w) [])) ->
  (forall p o k u p' o' k' u', nth_error (fl_ins L) p = Some o -> li_in o = Some k -> u < mul_of x k -> nth_error (fl_ins L) p' = Some o' -> li_in o' = Some k' -> u' < mul_of x k' ->
    Ex (fun w => (nth (u * mul_of y j + v) (nth p (ws w) []) 0 * entry x (arr (a w) i) k u c) * (nth (u' * mul_of y j + v) (nth p' (ws w) []) 0 * entry x (arr (a w) i) k' u' c))%R
    = if (p =? p') && (u =? u') then (li_std o ^ 2)%R else 0%R) ->
  Ex (fun w => entry y (arr (z w) i) j v c ^ 2)%R = 1%R.
Proof.
  intros HE E C Hp Hne H1 Hin Ha Hb Hu. pose proof (C28_sum_of_squares x y ins b pn gn L j E Hp Hne H1) as SS.
  set (d := LIns None 0 [] 0%R 0%R). set (P := length (fl_ins L)). rewrite (lsum_nth _ d) in SS. fold P in SS.
  set (T := fun p u w => match li_in (nth p (fl_ins L) d) with Some k => (nth (u * mul_of y j + v) (nth p (ws w) []) 0 * entry x (arr (a w) i) k u c)%R | None => 0%R end).
  set (M := fun p => match li_in (nth p (fl_ins L) d) with Some k => mul_of x k | None => 0 end).
  set (g := fun p => (if li_out (nth p (fl_ins L) d) =? j then li_pw (nth p (fl_ins L) d) else 0)%R).
  assert (V : forall w, entry y (arr (z w) i) j v c = rsum P (fun p => g p * rsum (M p) (fun u => T p u w))%R).
  { intros w. destruct (Ha w) as (H & Es & Hi & Hw & Ez). destruct (C25_call_value L (ws w) x y ins b pn gn E C (a w) H Es Hw) as (rows & (z' & Ez' & _ & _ & _ & Ea) & V). rewrite Ez in Ez'. injection Ez' as <-. rewrite Ea, V by assumption.
    assert (Lw : length (ws w) = P) by (symmetry; eapply Forall2_length; exact Hw). rewrite (lsum_nth _ (d, [])). rewrite combine_length, Lw. fold P. rewrite Nat.min_id. apply rsum_ext. intros p Hp'. rewrite combine_nth by (symmetry; exact Lw). unfold g, M, T.
    destruct (li_out (nth p (fl_ins L) d) =? j); [|lra]. destruct (li_in (nth p (fl_ins L) d)) as [k|] eqn:K; [reflexivity|]. cbn [rsum]. rewrite Rmult_0_r.
    assert (Ep : nth_error (fl_ins L) p = Some (nth p (fl_ins L) d)) by (apply nth_error_nth'; exact Hp'). pose proof (Hb p _ Ep K w) as Z. assert (Zv : nth v (nth p (ws w) []) 0%R = 0%R).
    { destruct (Nat.lt_ge_cases v (length (nth p (ws w) []))) as [Lv|Lv]; [|apply nth_overflow, Lv]. rewrite Forall_forall in Z. symmetry. apply Z, nth_In, Lv. } rewrite Zv. lra. }
  rewrite (Ex_ext _ _ HE _ (fun w => rsum P (fun p => rsum P (fun p' => (g p * g p') * rsum (M p) (fun u => rsum (M p') (fun u' => T p u w * T p' u' w)))))%R).
  2:{ intros w. rewrite V. cbn [pow]. rewrite Rmult_1_r, rsum_prod. apply rsum_ext. intros p _. apply rsum_ext. intros p' _. rewrite <- rsum_prod. ring. }
  rewrite (Ex_rsum _ HE). rewrite <- SS. apply rsum_ext. intros p Hp'. rewrite (Ex_rsum _ HE).
  assert (Ep : forall p, p < P -> nth_error (fl_ins L) p = Some (nth p (fl_ins L) d)) by (intros q Hq; apply nth_error_nth'; exact Hq).
  transitivity (rsum P (fun p' => if p' =? p then g p * g p * (INR (M p) * li_std (nth p (fl_ins L) d) ^ 2) else 0)%R).
  - apply rsum_ext. intros p' Hq. rewrite (Ex_scal _ _ HE), (Ex_rsum _ HE).
    rewrite (rsum_ext (M p) _ (fun u => rsum (M p') (fun u' => if (p =? p') && (u =? u') then li_std (nth p (fl_ins L) d) ^ 2 else 0)))%R.
    2:{ intros u Hu'. rewrite (Ex_rsum _ HE). apply rsum_ext. intros u' Hu''. unfold T, M in *. destruct (li_in (nth p (fl_ins L) d)) as [k|] eqn:K; [|lia]. destruct (li_in (nth p' (fl_ins L) d)) as [k'|] eqn:K'; [|lia]. apply (Hu p _ k u p' _ k' u' (Ep p Hp') K Hu' (Ep p' Hq) K' Hu''). }
    rewrite (Nat.eqb_sym p' p). destruct (Nat.eqb_spec p p') as [->|]; cbn [andb]; [|rewrite rsum_zero; [lra|intros; apply rsum_zero; reflexivity]]. f_equal.
    rewrite (rsum_ext _ _ (fun _ => li_std (nth p' (fl_ins L) d) ^ 2)%R). 2:{ intros u Hu'. rewrite (rsum_ext _ _ (fun u' => if u' =? u then li_std (nth p' (fl_ins L) d) ^ 2 else 0)%R) by (intros; rewrite Nat.eqb_sym; reflexivity). apply (rsum_delta (M p') u (fun _ => li_std (nth p' (fl_ins L) d) ^ 2)%R). exact Hu'. }
    apply rsum_const.
  - rewrite (rsum_delta P p (fun _ => g p * g p * (INR (M p) * li_std (nth p (fl_ins L) d) ^ 2))%R) by exact Hp'. unfold g, M. destruct (li_out _ =? j); [|lra]. destruct (li_in _) as [k|]; [ring|cbn [INR]; lra].
Qed.
(* a weight of mean zero on one input copy: Omega = bool * bool, two independent signs *)
Example C28_unit_variance_nonvacuous : let x := [(2, Irrep 0 Even)] in let y := [(1, Irrep 0 Even)] in exists L z,
  functional_linear x y None NoBias 0%R 1%R = Ok L /\
  let Ex := fun f : bool * bool -> R => ((f (true, true) + f (true, false) + f (false, true) + f (false, false)) / 4)%R in
  let sg := fun b : bool => if b then 1%R else (-1)%R in
  let ws := fun w : bool * bool => [[sg (fst w); sg (snd w)]] in let a := fun _ : bool * bool => IA x [] (fun _ => [1; 1]%R) None None in
  expectation _ Ex /\ (forall w, linear_call L (map (fun q _ => q) (ws w)) (a w) = Ok (z w)) /\
  (forall u u', u < 2 -> u' < 2 -> Ex (fun w => (nth (u * 1 + 0) (nth 0 (ws w) []) 0 * entry x (arr (a w) []) 0 u 0) * (nth (u' * 1 + 0) (nth 0 (ws w) []) 0 * entry x (arr (a w) []) 0 u' 0))%R = if (u =? u') then (match fl_ins L with o :: _ => li_std o ^ 2 | [] => 0 end)%R else 0%R).
Proof.
  intros x y. destruct (functional_linear x y None NoBias 0%R 1%R) as [L|e] eqn:E; [|discriminate].
  exists L. set (a := IA x [] (fun _ => [1; 1]%R) None None). set (sg := fun b : bool => if b then 1%R else (-1)%R).
  assert (Hc : coherent a) by (split; [intros i V; reflexivity|split; [apply flags_false|exact I]]).
  assert (Q : forall w : bool * bool, exists z, linear_call L (map (fun q _ => q) [[sg (fst w); sg (snd w)]]) a = Ok z).
  { intros w. destruct (C25_call_value L [[sg (fst w); sg (snd w)]] x y None NoBias 0%R 1%R E (default_connects _ _) a Hc eq_refl) as (rows & (z & Ez & _) & _); [|exists z; exact Ez].
    injection E as <-. cbn [fl_ins]. constructor; [reflexivity|constructor]. }
  exists (fun w => match linear_call L (map (fun q _ => q) [[sg (fst w); sg (snd w)]]) a with Ok z => z | Err _ => a end). split; [reflexivity|]. intros Ex sg' ws a'. split; [split|split].
  - intros f g H. unfold Ex. rewrite !H. reflexivity.
  - intros f g. unfold Ex. lra.
  - intros r f. unfold Ex. lra.
  - intros w. destruct (Q w) as (z & Ez). unfold ws, a'. fold a. change sg' with sg. rewrite Ez. reflexivity.
  - injection E as <-. cbn [fl_ins]. unfold default_instructions. intros u u' Hu Hu'. cbn [li_std enumerate length seq combine flat_map app x y irrep_eqb ir_l ir_p Nat.eqb andb]. replace (1 - 1)%R with 0%R by lra. rewrite Rpower_O by (apply sqrt_lt_R0, alpha_pos).
    destruct u as [|[|u]], u' as [|[|u']]; try lia; unfold Ex, ws, a', entry, sg'; cbn [nth fst snd arr]; cbn; lra.
Qed.
(* the counterexample: with path_normalization = "path", an empty input entry takes its share of the normalisation and contributes nothing *)
Theorem C28_empty_input_refuted : let x := [(1, Irrep 0 Even); (0, Irrep 0 Even)] in exists L, functional_linear x [(1, Irrep 0 Even)] None NoBias 1%R 0%R = Ok L /\
  lsum (fl_ins L) (fun o => if li_out o =? 0 then match li_in o with Some i => INR (mul_of x i) * (li_pw o * li_std o) ^ 2 | None => 0 end else 0)%R = (/ 2)%R.
Proof.
  intros x. eexists. split; [reflexivity|]. cbn [fl_ins]. change (default_instructions x [(1, Irrep 0 Even)]) with [(0, 0); (1, 0)].
  set (l := [(0, 0); (1, 0)]). rewrite lsum_app. cbn [map l]. rewrite !lsum_cons. cbn [li_out li_in li_pw li_std]. change (lsum [] _) with 0%R. cbn [Nat.eqb]. rewrite !sqrt_power by apply alpha_pos. rewrite !pow2_sqrt by (left; apply alpha_pos).
  rewrite (lsum_zero (flat_map _ _)) by (intros o []). change (mul_of x 0) with 1. change (mul_of x 1) with 0. cbn [INR].
  rewrite Rmult_0_l. unfold alpha. cbn [fst snd filter Nat.eqb map fold_right l]. change (mul_of x 0) with 1. change (mul_of x 1) with 0. unfold npow. cbn [Nat.eqb INR].
  replace (1 - 1)%R with 0%R by lra. destruct (Req_EM_T 0 0) as [_|N]; [|lra]. rewrite Rpower_1, Rpower_O by lra. destruct (Rlt_dec 0 _) as [_|N]; [lra|exfalso; apply N; lra].
Qed.
(* the space inversion: every odd irrep changes sign *)
Definition inversion_rep : rep := fun ir => tab2 (ir_dim ir) (ir_dim ir) (fun i j => if (i =? j)%nat then (match ir_p ir with Even => 1 | Odd => -1 end)%R else 0%R).
(* the counterexample to rejection: user instructions joining 0o to 0e are accepted, and the layer is not equivariant *)
Theorem C27_user_instructions_refuted : exists L a, functional_linear [(1, Irrep 0 Odd)] [(1, Irrep 0 Even)] (Some [(0, 0)]) NoBias 0%R 0%R = Ok L /\ coherent a /\ irr a = [(1, Irrep 0 Odd)] /\ rep_ok inversion_rep /\ scalar_trivial inversion_rep /\
  exists z z', (let! z := linear_call L [fun _ => [1%R]] a in transform inversion_rep z) = Ok z /\ (let! a' := transform inversion_rep a in linear_call L [fun _ => [1%R]] a') = Ok z' /\ nth 0 (arr z []) 0%R <> nth 0 (arr z' []) 0%R.
Proof.
  eexists. exists (IA [(1, Irrep 0 Odd)] [] (fun _ => [1%R]) None None). split; [reflexivity|].
  split; [split; [intros i V; reflexivity|split; [apply flags_false|exact I]]|]. split; [reflexivity|].
  split; [intros ir; apply tab2_wf|]. split; [reflexivity|].
  do 2 eexists. split; [reflexivity|]. split; [reflexivity|].
  cbn. set (s := Rpower _ _). assert (0 < s)%R by apply exp_pos. lra.
Qed.
