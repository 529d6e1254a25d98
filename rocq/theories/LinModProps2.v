(* C60, continued: names of the parameters, one row at a time, completeness. *)
From Coq Require Import Reals Lra Lia List Arith Bool Ascii.
From Verif Require Import PyBase PermModel PermProofs IrrepsModel IrrepsProofs IrrepsProofs2 IrrepsStr IrrepsStrProofs ArrayModel ArrayProofs ArrayOps ArrayProps3 RechunkProofs ArithProofs LeadModel LeadProofs BlockProofs AxisProofs StackProofs BilinProofs ActProofs EquivProofs EquivProofs2 HistoryProofs SumR EntryProofs TPModel TPProofs TPProofs2 GradProofs LinearModel LinearProofs LinearProps LinearComplete LinearProps2 LinModModel LinModProofs LinModProofs2 LinModProps.
From Verif Require Import RotationModel WignerModel WignerProofs WignerProofs2 RtpArr.
Import ListNotations.
Open Scope nat_scope.

(* ---- no two parameters share a name ---- *)
Lemma digits_split (a b : list ascii) c d u v : Forall (fun q => is_digit q = true) a -> Forall (fun q => is_digit q = true) b -> is_digit c = false -> is_digit d = false ->
  a ++ c :: u = b ++ d :: v -> a = b /\ c = d /\ u = v.
Proof.
  revert b. induction a as [|p a IH]; intros [|q b] Fa Fb Hc Hd E; cbn [app] in E.
  - injection E as -> ->. auto.
  - injection E as -> _. inversion Fb; congruence.
  - injection E as -> _. inversion Fa; congruence.
  - injection E as -> E. inversion Fa; inversion Fb; subst. destruct (IH b ltac:(assumption) ltac:(assumption) Hc Hd E) as (-> & -> & ->). auto.
Qed.
Lemma print_nat_inj n m : print_nat n = print_nat m -> n = m.
Proof. intros E. pose proof (print_nat_parse n) as H. rewrite E, print_nat_parse in H. congruence. Qed.
Lemma param_name_key x y o o' : param_name x y o = param_name x y o' -> path_key o = path_key o'.
Proof.
  unfold param_name, path_key. destruct (li_in o) as [i|], (li_in o') as [i'|]; intros E; cbn [app] in E; try discriminate.
  - injection E as E. rewrite <- ?app_assoc in E. cbn [app] in E. apply digits_split in E as (E1 & _ & E2); try apply print_nat_digits; try reflexivity. apply print_nat_inj in E1 as ->.
    rewrite <- ?app_assoc in E2. cbn [app] in E2. apply digits_split in E2 as (E1 & _ & E3); try apply print_nat_digits; try reflexivity. apply print_nat_inj in E1 as ->. reflexivity.
  - injection E as E. rewrite <- ?app_assoc in E. cbn [app] in E. apply digits_split in E as (E1 & _ & E2); try apply print_nat_digits; try reflexivity. apply print_nat_inj in E1 as ->. reflexivity.
Qed.
Theorem C60_names_distinct x y b pn gn L ex : functional_linear x y None b pn gn = Ok L -> NoDup (map fst (requests L ex)).
Proof.
  intros E. unfold requests. rewrite map_map. cbn [fst]. pose proof (keys_distinct _ _ _ _ _ _ E) as N. revert N. unfold pname. generalize (fl_ins L). intros l. induction l as [|o l IH]; intros N; [constructor|]. cbn [map] in *. inversion N as [|? ? H1 H2]; subst. constructor; [|now apply IH].
  intros H. apply in_map_iff in H as (o' & E' & H'). apply H1. rewrite <- (param_name_key _ _ _ _ E'). now apply in_map.
Qed.

(* ---- one row at a time ---- *)
(* the same module without indexing, mixing or channels for the weights *)
Definition vanilla_of (M : lmodule) : lmodule := LMod (m_out M) (m_channel M) (m_in M) (m_biases M) (m_pn M) (m_gn M) (m_instr M) None false (m_force M) (m_simplify M).
(* which of n slices the integer z denotes: z itself, counted from the end when negative, the nearest slice when out of range *)
Definition slice_number (n : nat) (z : Z) : nat := if (0 <=? z)%Z then Nat.min (Z.to_nat z) (n - 1) else n - Z.to_nat (- z).
(* the dictionary a row uses: the slice picked by its index, or sqrt(1/d)^gn times the combination of the d slices with its weights *)
Definition weights_at (M : lmodule) (P : params) (w : weights_arg) (i : idx) : params := fun nm _ =>
  match plain w with
  | NoWeights | Wrapped _ => P nm []
  | Indices si ix => P nm [slice_number (match m_indexed M with Some n => n | None => 0 end) (ix (bidx si i))]
  | Floats sw d f => let (p, v) := if m_per_channel M then (fun k => P nm [k; last i 0], f (bidx sw (removelast i))) else (fun k => P nm [k], f (bidx sw i)) in
      map (fun q => (Rpower (sqrt (1 / INR d)) (m_gn M) * rsum d (fun k => nth k v 0 * nth q (p k) 0))%R) (seq 0 (length (p 0)))
  end.
Lemma gather_slice n z : gather_index n z = slice_number n z.
Proof. unfold gather_index, slice_number. destruct (Z.leb_spec 0 z), (Z.ltb_spec z 0); lia. Qed.
Lemma fold_rsum n (f : nat -> R) : fold_right Rplus 0%R (map f (seq 0 n)) = rsum n f.
Proof. assert (G : forall l : list R, fold_right Rplus 0%R l = lsum l (fun r => r)) by (induction l as [|r l IH]; [reflexivity|rewrite lsum_cons; cbn [fold_right]; now rewrite IH]). rewrite G, lsum_map. apply lsum_seq. Qed.
Lemma valid_snoc_last s n i : valid (s ++ [n]) i -> last i 0 < n.
Proof. intros H. apply valid_snoc_inv in H as (j & k & -> & _ & Hk). now rewrite last_last. Qed.
Lemma weights_at_chosen M P w L s s' o i : usable M w s -> layer_lead M w s = Ok s' -> supplies P (extra M w s) L -> In o (fl_ins L) -> valid s' i -> forall e, weights_at M P w i (pname L o) e = chosen M P w (pname L o) (nprod (li_shape o)) i.
Proof.
  intros [_ U] El HP Ho Hi e. unfold weights_at, chosen, layer_lead, extra in *. destruct (plain w) as [|si ix|sw d f|a]; try reflexivity; [now rewrite gather_slice|]. destruct U as (En & Nd & Pc). unfold mix. destruct (m_per_channel M).
  - destruct (broadcast_shapes (removelast s) sw) as [r|] eqn:Er; [|discriminate]. cbn [rmap] in El. injection El as <-. rewrite (HP o Ho [0; last i 0]) by (repeat constructor; [lia|apply (valid_snoc_last r), Hi]). apply map_ext. intros q. now rewrite fold_rsum.
  - rewrite (HP o Ho [0]) by (repeat constructor; lia). apply map_ext. intros q. now rewrite fold_rsum.
Qed.
Lemma split_at c i q : forall x (a a0 : idx -> list R), a i = a0 [] -> blockwise (fun m => V_split c m (i ++ [q])) x a = blockwise (fun m => V_split c m [q]) x a0.
Proof.
  induction x as [|m x IH]; intros a a0 E; [reflexivity|]. cbn [blockwise]. f_equal; [|apply IH; now rewrite E]. unfold V_split. rewrite removelast_last, last_last. cbn [removelast last]. now rewrite E.
Qed.
Lemma merge_at n i : forall x (a a0 : idx -> list R), (forall k, k < n -> a (i ++ [k]) = a0 [k]) -> blockwise (fun m => V_merge n m i) x a = blockwise (fun m => V_merge n m []) x a0.
Proof.
  induction x as [|m x IH]; intros a a0 E; [reflexivity|]. cbn [blockwise]. f_equal; [|apply IH; intros k Hk; now rewrite E]. unfold V_merge. f_equal. apply map_ext_in. intros k Hk. apply in_seq in Hk. cbn [app]. rewrite E by lia. reflexivity.
Qed.
Theorem C60_rows M P w x s' L i x0 : coherent x -> accepted M w x s' -> layer_for M x = Ok L -> supplies P (extra M w (inner_lead M (lead x))) L -> valid s' i ->
  coherent x0 -> irr x0 = irr x -> zero_flags x0 = zero_flags x -> lead x0 = match m_channel M with None => [] | Some _ => [last (lead x) 0] end ->
  (forall j, valid (lead x0) j -> arr x0 j = arr x (bidx (inner_lead M (lead x)) i ++ j)) ->
  exists r r0, module_call M P w x = Ok r /\ module_call (vanilla_of M) (weights_at M P w i) NoWeights x0 = Ok r0 /\
    irr r = irr r0 /\ lead r = s' ++ lead r0 /\ lead r0 = match m_channel M with None => [] | Some c => [c] end /\
    forall k, valid (lead r0) k -> arr r (i ++ k) = arr r0 k.
Proof.
  intros Cx A EL HP Hi C0 I0 F0 L0 V0. set (N := vanilla_of M). set (P0 := weights_at M P w i).
  assert (Es : seen N x0 = seen M x) by (unfold seen; cbn [N vanilla_of m_simplify]; now rewrite I0, F0). assert (Et : target N x0 = target M x) by (unfold target; rewrite Es; reflexivity).
  assert (Ef : fed N x0 = fed M x). { unfold fed. cbn [N vanilla_of m_channel]. rewrite Es, L0. destruct (m_channel M); reflexivity. } assert (Ea : asked N x0 = asked M x) by (unfold asked; rewrite Et; reflexivity).
  assert (Ei0 : inner_lead N (lead x0) = []) by (unfold inner_lead; cbn [N vanilla_of m_channel]; rewrite L0; destruct (m_channel M); reflexivity).
  assert (A0 : accepted N NoWeights x0 []).
  { destruct A as [Av Ac Ach Aw Al]. split.
    - rewrite Ef. exact Av.
    - rewrite Ef, Ea. exact Ac.
    - cbn [N vanilla_of m_channel m_per_channel]. intros c Ec. destruct (Ach c Ec) as (Nc & _ & _). rewrite L0, Ec. repeat split; [exact Nc|discriminate].
    - rewrite Ei0. split; [exact Logic.I|]. reflexivity.
    - rewrite Ei0. reflexivity. }
  assert (EL0 : layer_for N x0 = Ok L) by (unfold layer_for; rewrite Ef, Ea; exact EL).
  pose proof (fun o Ho e => weights_at_chosen M P w L _ s' o i (ac_weights _ _ _ _ A) (ac_lead _ _ _ _ A) HP Ho Hi e) as WC.
  pose proof (row_weights_length M P w L _ s' (ac_weights _ _ _ _ A) (ac_lead _ _ _ _ A) HP) as RW.
  assert (HP0 : supplies P0 (extra N NoWeights (inner_lead N (lead x0))) L).
  { intros o Ho e _. unfold P0. rewrite WC by exact Ho. unfold row_weights in RW. clear -RW Ho Hi. induction (fl_ins L) as [|o' l IH]; [destruct Ho|]. inversion RW; subst. destruct Ho as [->|Ho]; auto. }
  assert (EW : map (fun f => f []) (row_weights N P0 NoWeights L) = map (fun f => f i) (row_weights M P w L)).
  { unfold row_weights. rewrite !map_map. apply map_ext_in. intros o Ho. unfold chosen at 1. cbn [plain]. unfold P0. now apply WC. }
  destruct (st_run _ _ _ _ _ _ _ (call_stage M P w x s' L Cx A EL HP) x (conj eq_refl Cx) Cx eq_refl eq_refl) as (r & E & H1 & H2 & H3 & H4).
  destruct (st_run _ _ _ _ _ _ _ (call_stage N P0 NoWeights x0 [] L C0 A0 EL0 HP0) x0 (conj eq_refl C0) C0 eq_refl eq_refl) as (r0 & E0 & G1 & G2 & G3 & G4).
  assert (Sr : lead r0 = match m_channel M with None => [] | Some c => [c] end) by (rewrite G2; unfold result_lead; cbn [N vanilla_of m_channel]; destruct (m_channel M); reflexivity).
  exists r, r0. split; [exact E|]. split; [exact E0|]. split; [rewrite H1, G1; unfold result_irreps; rewrite Et; reflexivity|]. split; [rewrite H2, Sr; unfold result_lead; destruct (m_channel M); [reflexivity|now rewrite app_nil_r]|]. split; [exact Sr|].
  intros k Hk. assert (Hik : valid (result_lead M s') (i ++ k)). { unfold result_lead. rewrite Sr in Hk. destruct (m_channel M); [now apply valid_app|]. inversion Hk; subst. now rewrite app_nil_r. }
  rewrite H4 by exact Hik. rewrite G2 in Hk. rewrite G4 by exact Hk. clear H4 G4.
  assert (Mid : mid_T M P w L x (pre_T M x (arr x)) i = mid_T N P0 NoWeights L x0 (pre_T N x0 (arr x0)) []).
  { unfold mid_T, layer_row. rewrite Ef, Ea, EW, Ei0. f_equal. f_equal. f_equal. change (bidx [] []) with (@nil nat). unfold pre_T. cbn [N vanilla_of m_channel]. destruct (m_channel M) as [c|] eqn:Ec.
    - rewrite Es, L0. cbn [last]. apply merge_at. intros q Hq. unfold pre0. cbn [N vanilla_of m_simplify]. rewrite I0, F0. rewrite V0; [reflexivity|]. rewrite L0. constructor; [exact Hq|constructor].
    - unfold pre0. cbn [N vanilla_of m_simplify]. rewrite I0, F0. rewrite V0 by (rewrite L0; constructor). rewrite app_nil_r. reflexivity. }
  unfold call_T, post_T. cbn [N vanilla_of m_channel]. unfold result_lead in Hk. cbn [N vanilla_of m_channel] in Hk. destruct (m_channel M) as [c|].
  - rewrite Ea. cbn [app] in Hk. inversion Hk as [|q ? k' ? Hq Hk']; subst. inversion Hk'; subst. now apply split_at.
  - inversion Hk; subst. rewrite app_nil_r. exact Mid.
Qed.

(* ---- every equivariant linear map is the module for some parameters ---- *)
Definition unsort (x : irreps) (row : list R) : list R := concat (map (fun k => nth k (blocks (sort_irreps x) row) []) (inv_nat (sort_inv_list x))).
Lemma map_nth_perm {A} (p q : list nat) (B : list A) d : (forall i, i < length q -> nth (nth i q 0) p 0 = i /\ nth i q 0 < length p) -> length q = length B -> map (fun k => nth k (map (fun k' => nth k' B d) p) d) q = B.
Proof.
  intros H L. apply (nth_ext _ _ d d); [now rewrite map_length|]. rewrite map_length. intros i Hi. destruct (H i Hi) as [H1 H2]. rewrite (nth_indep _ d (nth 0 (map (fun k' => nth k' B d) p) d)) by (now rewrite map_length).
  rewrite (map_nth (fun k => nth k (map (fun k' => nth k' B d) p) d) q 0 i). rewrite (nth_indep _ d (nth 0 B d)) by (now rewrite map_length). rewrite (map_nth (fun k' => nth k' B d) p 0). now rewrite H1.
Qed.
Lemma sort_row_blocks x row : length row = dim x -> blocks (sort_irreps x) (sort_row' x row) = map (fun k => nth k (blocks x row) []) (sort_inv_list x).
Proof. intros H. apply blocks_concat, S2Proofs3.sort_blocks_wf, H. Qed.
Lemma sort_row_length x row : length row = dim x -> length (sort_row' x row) = dim (sort_irreps x).
Proof. intros H. unfold sort_row'. pose proof (S2Proofs3.sort_blocks_wf x row H) as F. clear H. revert F. generalize (map (fun k => nth k (blocks x row) []) (sort_inv_list x)) (sort_irreps x). intros bs l F. induction F as [|m b l bs Hb F IH]; [reflexivity|]. cbn [concat]. rewrite app_length, dim_cons, IH, Hb. reflexivity. Qed.
Lemma sort_dim x : dim (sort_irreps x) = dim x.
Proof. apply dim_perm, sort_irreps_perm. Qed.
Lemma unsort_wf x (row : list R) : length row = dim x -> Forall2 (fun m (b : list R) => length b = mi_dim m) x (map (fun k => nth k (blocks (sort_irreps x) row) []) (inv_nat (sort_inv_list x))).
Proof.
  intros H. rewrite <- sort_dim in H. pose proof (blocks_widths _ _ H) as F. set (q := inv_nat (sort_inv_list x)). assert (Lq : length q = length x) by (unfold q; rewrite inv_nat_length; apply sort_inv_length).
  assert (G : forall k, k < length x -> length (nth k (map (fun k => nth k (blocks (sort_irreps x) row) []) q) []) = mi_dim (nth k x dflt)).
  { intros k Hk. destruct (conj (inv_nat_r (sort_inv_list x) k (sort_inv_perm x) ltac:(now rewrite sort_inv_length)) (perm_nth_lt q k ltac:(apply inv_nat_perm, sort_inv_perm) ltac:(lia))) as [E1 E2]. fold q in E1. rewrite (nth_indep _ [] (nth 0 (blocks (sort_irreps x) row) [])) by (rewrite map_length; lia). rewrite (map_nth (fun k => nth k (blocks (sort_irreps x) row) []) q 0).
    rewrite Lq in E2. assert (Ls : length (sort_irreps x) = length x) by (rewrite sort_irreps_map, map_length; apply sort_inv_length). assert (Hq : nth k q 0 < length (sort_irreps x)) by lia.
    assert (W : length (nth (nth k q 0) (blocks (sort_irreps x) row) []) = mi_dim (nth (nth k q 0) (sort_irreps x) dflt)). { clear -F Hq. revert Hq. generalize (nth k q 0). induction F as [|m b l bs Hb F IH]; intros [|n] Hn; cbn [length] in Hn; try lia; [exact Hb|]. cbn [nth]. apply IH. lia. }
    rewrite W, sort_irreps_nth by lia. now rewrite E1. }
  assert (L : length (map (fun k => nth k (blocks (sort_irreps x) row) []) q) = length x) by (now rewrite map_length). clearbody q. revert G L. generalize (map (fun k => nth k (blocks (sort_irreps x) row) []) q). clear. induction x as [|m x IH]; intros [|b bs] G L; try discriminate; constructor.
  - apply (G 0). cbn. lia.
  - apply IH; [|now injection L]. intros k Hk. apply (G (S k)). cbn. lia.
Qed.
Lemma unsort_length x row : length row = dim x -> length (unsort x row) = dim x.
Proof. intros H. unfold unsort. pose proof (unsort_wf x row H) as F. revert F. generalize (map (fun k => nth k (blocks (sort_irreps x) row) []) (inv_nat (sort_inv_list x))). clear. induction x as [|m x IH]; intros bs F; inversion F; subst; [reflexivity|]. cbn [concat]. rewrite app_length, dim_cons, IH by assumption. now f_equal. Qed.
Lemma unsort_sort x row : length row = dim x -> unsort x (sort_row' x row) = row.
Proof.
  intros H. unfold unsort. rewrite sort_row_blocks by exact H. rewrite map_nth_perm; [now apply concat_blocks| |rewrite inv_nat_length, blocks_length; apply sort_inv_length]. intros i Hi. rewrite inv_nat_length in Hi. split; [apply inv_nat_r; [apply sort_inv_perm|exact Hi]|]. rewrite <- (inv_nat_length (sort_inv_list x)). apply perm_nth_lt; [apply inv_nat_perm, sort_inv_perm|now rewrite inv_nat_length].
Qed.
Lemma sort_unsort x row : length row = dim x -> sort_row' x (unsort x row) = row.
Proof.
  intros H. unfold sort_row'. unfold unsort at 1. rewrite blocks_concat by (now apply unsort_wf). rewrite map_nth_perm; [apply concat_blocks; now rewrite sort_dim| |rewrite blocks_length, sort_irreps_map, map_length; reflexivity]. intros i Hi. split; [apply inv_nat_l; [apply sort_inv_perm|exact Hi]|]. rewrite inv_nat_length. apply perm_nth_lt; [apply sort_inv_perm|exact Hi].
Qed.

Lemma unsort_lin t x a b : length a = dim x -> length b = dim x -> unsort x (lin t a b) = lin t (unsort x a) (unsort x b).
Proof.
  intros La Lb. rewrite <- (sort_unsort x a La) at 1. rewrite <- (sort_unsort x b Lb) at 1. rewrite <- sort_row_lin by (now rewrite !unsort_length). apply unsort_sort. rewrite lin_len by (now rewrite !unsort_length). now apply unsort_length.
Qed.
Lemma unsort_act D x a : rep_ok D -> scalar_trivial D -> length a = dim x -> unsort x (act D (regroup_irreps x) a) = act D x (unsort x a).
Proof.
  intros HD HS La. rewrite <- (sort_unsort x a La) at 1. pose proof (st_act _ _ _ _ _ _ _ (regroup_stage x []) D HD HS (fun _ => unsort x a) [] ltac:(constructor) ltac:(intros; now apply unsort_length)) as E. cbv beta in E. rewrite E. apply unsort_sort. rewrite act_length by exact HD. reflexivity.
Qed.
Fixpoint lookup (k : chars) (l : list (chars * list R)) : list R := match l with [] => [] | (n, v) :: l => if list_eq_dec ascii_dec k n then v else lookup k l end.
Lemma lookup_all (ns : list chars) (ws : list (list R)) : NoDup ns -> length ws = length ns -> map (fun n => lookup n (combine ns ws)) ns = ws.
Proof.
  revert ws. induction ns as [|n ns IH]; intros [|w ws] N L; try discriminate; [reflexivity|]. inversion N as [|? ? H1 H2]; subst. injection L as L. cbn [map combine lookup]. destruct (list_eq_dec ascii_dec n n) as [_|]; [|congruence]. f_equal. transitivity (map (fun n => lookup n (combine ns ws)) ns); [|exact (IH ws H2 L)]. apply map_ext_in. intros m Hm. cbn [lookup]. destruct (list_eq_dec ascii_dec m n) as [->|]; [contradiction|reflexivity].
Qed.
Lemma no_flags_select {A} (x : list A) : select (map negb (repeat false (length x))) x = x.
Proof. induction x as [|a x IH]; [reflexivity|]. cbn. now rewrite IH. Qed.
Lemma Forall2_map_In {A C} (Q : A -> C -> Prop) (f : A -> C) l : Forall2 Q l (map f l) -> forall o, In o l -> Q o (f o).
Proof. induction l as [|a l IH]; intros W o H; [destruct H|]. inversion W; subst. destruct H as [->|H]; auto. Qed.
Theorem C60_complete M x T : m_channel M = None -> m_in M = None -> m_biases M = NoBias -> m_instr M = None -> m_per_channel M = false -> m_simplify M = true ->
  coherent x -> zero_flags x = repeat false (length (irr x)) -> linear_rows (irr x) (result_irreps M x) T -> equivariant_rows (irr x) (result_irreps M x) T ->
  exists P, forall y, coherent y -> irr y = irr x -> zero_flags y = zero_flags x -> yields (module_call M P NoWeights y) (result_irreps M x) (lead y) (fun i => T (arr y i)).
Proof.
  intros Ec Ein Eb Eins Epc Esi Cx Fx [KT LT] HE. set (X := irr x) in *.
  assert (Es : seen M x = regroup_irreps X) by (unfold seen; rewrite Esi, Fx; fold X; now rewrite no_flags_select). assert (Ef : fed M x = regroup_irreps X) by (unfold fed; now rewrite Ec). assert (Ea : asked M x = target M x) by (unfold asked; now rewrite Ec).
  assert (Fr : flat (result_irreps M x) = flat (target M x)) by (unfold result_irreps; destruct (m_force M) eqn:E; [|reflexivity]; symmetry; apply simplify_iff, forced_simplify, E). assert (Dr : dim (result_irreps M x) = dim (target M x)) by (rewrite <- !dims_flat; now rewrite Fr).
  assert (Dx : dim (regroup_irreps X) = dim X) by apply regroup_dim. set (T' := fun row => T (unsort X row)).
  assert (LT' : linear_rows (fed M x) (asked M x) T').
  { rewrite Ef, Ea. split; [intros a La; unfold T'; rewrite KT; [exact Dr|]; apply unsort_length; congruence|]. intros t a b La Lb. rewrite Dx in La, Lb. unfold T'. change (zipR Rplus (map (Rmult t) a) b) with (lin t a b). rewrite unsort_lin by assumption. apply LT; now apply unsort_length. }
  assert (HE' : equivariant_rows (fed M x) (asked M x) T').
  { rewrite Ef, Ea. intros r a Or La. rewrite Dx in La. unfold T'. rewrite unsort_act by (try exact La; try apply as_rep_ok; now apply rep_of_scalar). rewrite HE by (try exact Or; now apply unsort_length). apply act_flat, Fr. }
  destruct (proj2 (C27_biases (fed M x) (asked M x) NoBias (m_pn M) (m_gn M)) Logic.I) as [L EL].
  destruct (C27_complete _ _ _ _ L T' EL LT' HE') as (ws & W & H).
  pose proof (C60_names_distinct _ _ _ _ _ L [] EL) as ND. unfold requests in ND. rewrite map_map in ND. cbn [fst] in ND. rewrite (map_ext _ (pname L)) in ND by reflexivity.
  set (P := (fun nm _ => lookup nm (combine (map (pname L) (fl_ins L)) ws)) : params).
  assert (EP : map (fun o => P (pname L o) []) (fl_ins L) = ws). { unfold P. etransitivity; [|exact (lookup_all (map (pname L) (fl_ins L)) ws ND ltac:(rewrite map_length; symmetry; exact (Forall2_length _ _ _ W)))]. rewrite map_map. reflexivity. }
  exists P. intros y Cy Iy Fy.
  assert (Efy : fed M y = fed M x) by (unfold fed, seen; rewrite Ec, Iy, Fy; reflexivity). assert (Eay : asked M y = asked M x) by (unfold asked, target, seen; rewrite Ec, Iy, Fy; reflexivity). assert (Ery : result_irreps M y = result_irreps M x) by (unfold result_irreps, target, seen; rewrite Iy, Fy; reflexivity).
  assert (ELy : layer_for M y = Ok L) by (unfold layer_for; rewrite Efy, Eay, Eins, Eb; exact EL). assert (Eil : inner_lead M (lead y) = lead y) by (unfold inner_lead; now rewrite Ec).
  assert (Ay : accepted M NoWeights y (lead y)).
  { split.
    - unfold validate_inputs. now rewrite Eins, Ein.
    - rewrite Eins. apply default_connects.
    - intros c Q. congruence.
    - rewrite Eil. split; [exact Logic.I|exact Epc].
    - rewrite Eil. reflexivity. }
  assert (HP : supplies P (extra M NoWeights (inner_lead M (lead y))) L).
  { intros o Ho e _. change (P (pname L o) e) with (P (pname L o) []). rewrite <- EP in W. exact (Forall2_map_In _ _ (fl_ins L) W o Ho). }
  pose proof (call_stage M P NoWeights y (lead y) L Cy Ay ELy HP) as CS. destruct (module_layer_stage M P NoWeights _ _ _ _ _ _ L _ (lead y) ELy (ac_connects _ _ _ _ Ay) (ac_weights _ _ _ _ Ay) (ac_lead _ _ _ _ Ay) HP) as [LS _].
  destruct (st_run _ _ _ _ _ _ _ CS y (conj eq_refl Cy) Cy eq_refl eq_refl) as (r & E & H1 & H2 & H3 & H4). exists r. rewrite <- Ery. unfold result_lead in H2, H4. rewrite Ec in H2, H4. repeat (split; [assumption|]). intros i Hi. rewrite H4 by exact Hi.
  set (z := IA (fed M y) (lead y) (pre_T M y (arr y)) None None). assert (N1 : m_channel M <> None -> lead y <> []) by congruence. pose proof (st_len _ _ _ _ _ _ _ (pre_stage M y Cy N1) (arr y)) as Lz. rewrite Eil in Lz.
  destruct (fresh_chunks (fed M y) (lead y) (pre_T M y (arr y)) (fun i Hi => Lz i Hi (proj1 Cy))) as [Cz _]. fold z in Cz.
  rewrite Eil in LS. destruct (st_run _ _ _ _ _ _ _ LS z Logic.I Cz eq_refl eq_refl) as (o1 & F1 & _ & _ & _ & G1). destruct (H z Cz ltac:(unfold z; cbn [irr]; now rewrite Efy)) as (o2 & F2 & _ & _ & _ & G2).
  assert (Eo : o1 = o2). { unfold module_layer in F1. rewrite Epc in F1. cbn [negb assert bind] in F1. unfold linear_vanilla in F1. assert (EW : map (fun o (_ : idx) => P (pname L o) []) (fl_ins L) = map (fun w (_ : idx) => w) ws) by (rewrite <- EP, map_map; reflexivity). rewrite EW in F1. congruence. }
  subst o2. cbv beta in G1, G2. cbn [z lead arr] in G2. unfold call_T, post_T. rewrite Ec. unfold mid_T. rewrite Eil. cbn [z arr] in G1. rewrite <- G1 by exact Hi. rewrite G2 by exact Hi. unfold T', pre_T. rewrite Ec. unfold pre0. rewrite Esi, Fy, Fx, Iy. fold X. rewrite no_flags_select.
  assert (Ed : drop_row (repeat false (length X)) X (arr y i) = arr y i). { unfold drop_row. rewrite <- (blocks_length X (arr y i)), no_flags_select. apply concat_blocks. rewrite (proj1 Cy i Hi), Iy. reflexivity. }
  rewrite Ed. rewrite unsort_sort; [reflexivity|]. rewrite (proj1 Cy i Hi), Iy. reflexivity.
Qed.
