(* rechunk (and simplify, unify, regroup) of IrrepsArray *)
From Verif Require Import PyBase PermModel PermProofs IrrepsModel IrrepsProofs IrrepsProofs2 ArrayModel ArrayProofs ArrayOps.
From Coq Require Import Reals Permutation.
Open Scope nat_scope.

Definition allb (l : list bool) : bool := forallb (fun z => z) l.
Lemma allb_app a b : allb (a ++ b) = allb a && allb b.
Proof. apply forallb_app. Qed.
Lemma allb_repeat b n : 0 < n -> allb (repeat b n) = b.
Proof. intros H. destruct n; [lia|]. clear H. induction n; cbn in *; [apply andb_true_r|]. rewrite IHn. destruct b; reflexivity. Qed.
Lemma allb_true n : allb (repeat true n) = true.
Proof. induction n; cbn; auto. Qed.
Lemma ir_dim_pos ir : 0 < ir_dim ir.
Proof. unfold ir_dim. lia. Qed.

(* ---------- specification of the emitted chunks ---------- *)
Definition emitted (s : shape) (m : mulirrep) (tg : list bool) (rw : idx -> list (list R)) (o : option chunk) : Prop :=
  is_none o = allb tg /\ wf_opt s m o /\ forall i, valid s i -> rows_of m o i = rw i.
Fixpoint emits (s : shape) (x : irreps) (tg : list bool) (rw : idx -> list (list R)) (out : list (option chunk)) : Prop :=
  match x, out with
  | [], [] => tg = [] /\ forall i, valid s i -> rw i = []
  | m :: x, o :: out => fst m <= length tg /\ emitted s m (firstn (fst m) tg) (fun i => firstn (fst m) (rw i)) o /\
      emits s x (skipn (fst m) tg) (fun i => skipn (fst m) (rw i)) out
  | _, _ => False
  end.

Lemma emits_ext s x tg rw rw' out : (forall i, valid s i -> rw i = rw' i) -> emits s x tg rw out -> emits s x tg rw' out.
Proof.
  revert tg rw rw' out. induction x as [|m x IH]; intros tg rw rw' [|o out] E H; cbn [emits] in *; try contradiction.
  - destruct H as [H1 H2]. split; [exact H1|]. intros i Hi. rewrite <- E by exact Hi. auto.
  - destruct H as (H0 & (H1 & H2 & H3) & H4). split; [exact H0|]. split.
    + split; [exact H1|]. split; [exact H2|]. intros i Hi. rewrite <- E by exact Hi. auto.
    + eapply IH; [|exact H4]. intros i Hi. cbv beta. rewrite E by exact Hi. reflexivity.
Qed.

(* tags and rows of the source *)
Definition tags (src : list (mulirrep * option chunk)) : list bool := flat_map (fun p => repeat (is_none (snd p)) (fst (fst p))) src.
Definition srows (src : list (mulirrep * option chunk)) (i : idx) : list (list R) := flat_map (fun p => rows_of (fst p) (snd p) i) src.

Definition pend (s : shape) (d : nat) (p : pending) (tg : list bool) (rw : idx -> list (list R)) : Prop :=
  match p with
  | PInt n => tg = repeat true n /\ forall i, valid s i -> rw i = zeros_rows n d
  | PArr c => allb tg = false /\ c_lead c = s /\ c_mul c = length tg /\ c_dim c = d /\
      forall i, valid s i -> c_val c i = rw i /\ length (rw i) = length tg /\ Forall (fun r => length r = d) (rw i)
  end.

Lemma pend_pmul s d p tg rw : pend s d p tg rw -> pmul_of p = length tg.
Proof. destruct p; cbn; [intros [-> _]; rewrite repeat_length; reflexivity|tauto]. Qed.
Lemma zeros_rows_length n d : length (zeros_rows n d) = n.
Proof. apply repeat_length. Qed.
Lemma zeros_rows_widths n d : Forall (fun r => length r = d) (zeros_rows n d).
Proof. apply Forall_forall. intros r Hr. apply repeat_spec in Hr as ->. apply repeat_length. Qed.
Lemma pend_rows_length s d p tg rw i : pend s d p tg rw -> valid s i -> length (rw i) = length tg.
Proof. destruct p; cbn; [intros [-> H] Hi; rewrite H, zeros_rows_length, repeat_length by exact Hi; reflexivity|]. intros (_ & _ & _ & _ & H) Hi. apply H, Hi. Qed.

Lemma pend_emitted s m p tg rw : pend s (ir_dim (snd m)) p tg rw -> length tg = fst m ->
  emitted s m tg rw (match p with PInt _ => None | PArr c => Some c end).
Proof.
  destruct p as [n|c]; cbn.
  - intros [-> H] L. rewrite repeat_length in L. subst n. split; [symmetry; apply allb_true|]. split; [exact I|]. intros i Hi. rewrite H by exact Hi. reflexivity.
  - intros (A & E1 & E2 & E3 & H) L. split; [symmetry; exact A|]. split.
    + cbn. unfold wf_chunk. rewrite E1, E2, E3, L. repeat split; auto; intros; destruct (H i) as (-> & H1 & H2); auto; congruence.
    + intros i Hi. cbn. apply H, Hi.
Qed.

Lemma zeros_rows_app a b d : zeros_rows a d ++ zeros_rows b d = zeros_rows (a + b) d.
Proof. symmetry. apply repeat_app. Qed.

Lemma absorb_pend s ir cur tg rw m x : pend s (ir_dim ir) cur tg rw -> wf_opt s (m, ir) x -> 0 < m ->
  pend s (ir_dim ir) (absorb s (ir_dim ir) cur m x) (tg ++ repeat (is_none x) m) (fun i => rw i ++ rows_of (m, ir) x i).
Proof.
  intros H W Hm. destruct x as [x|]; cbn [absorb is_none].
  - destruct W as (W1 & W2 & W3 & W4). cbn [fst snd] in *. destruct cur as [n|c]; cbn [pend] in H.
    + destruct H as [-> H]. destruct (Nat.eqb_spec n 0) as [->|Hn]; cbn.
      * rewrite allb_repeat by exact Hm. rewrite repeat_length. repeat split; auto; intros; rewrite H by assumption; cbn; try apply W4; auto.
      * rewrite allb_app, (allb_repeat false m) by exact Hm. rewrite andb_false_r, app_length, !repeat_length, W2.
        repeat split; auto; intros; rewrite H by assumption; cbn; auto.
        { rewrite app_length, zeros_rows_length. destruct (W4 i) as [-> _]; auto. }
        { apply Forall_app. split; [apply zeros_rows_widths|apply W4; assumption]. }
    + destruct H as (A & E1 & E2 & E3 & H). cbn. rewrite allb_app, A, app_length, repeat_length, E1, E2, E3, W2. cbn [andb].
      repeat split; auto; intros; destruct (H i) as (V & L & F); auto; rewrite ?V; auto.
      { rewrite app_length, L. destruct (W4 i) as [-> _]; auto. }
      { apply Forall_app. split; [exact F|apply W4; assumption]. }
  - destruct cur as [n|c]; cbn [pend] in H.
    + destruct H as [-> H]. cbn. split; [rewrite repeat_app; reflexivity|]. intros i Hi. rewrite H by exact Hi. apply zeros_rows_app.
    + destruct H as (A & E1 & E2 & E3 & H). cbn. rewrite allb_app, A, app_length, repeat_length, E1, E2, E3. cbn [andb].
      repeat split; auto; intros; destruct (H i) as (V & L & F); auto; rewrite ?V; auto.
      { rewrite app_length, L. unfold rows_of, zeros_rows; rewrite repeat_length. reflexivity. }
      { apply Forall_app. split; [exact F|apply zeros_rows_widths]. }
Qed.

Lemma skip_zeros_spec x zs rest : skip_zeros x = (zs, rest) ->
  flat rest = flat x /\ (match rest with [] => True | m :: _ => 0 < fst m end) /\
  (forall s tg rw fin, emits s rest tg rw fin -> emits s x tg rw (zs ++ fin)).
Proof.
  revert zs rest. induction x as [|[[|mul] ir] x IH]; cbn [skip_zeros]; intros zs rest E.
  - injection E as <- <-. cbn. auto.
  - destruct (skip_zeros x) as [zs' rest'] eqn:E'. injection E as <- <-. destruct (IH _ _ eq_refl) as (F & P & H).
    split; [exact F|]. split; [exact P|]. intros s tg rw fin He. cbn [app emits fst firstn skipn]. split; [lia|]. split.
    + split; [reflexivity|]. split; [exact I|]. intros i Hi. reflexivity.
    + apply H. exact He.
  - injection E as <- <-. cbn. split; [reflexivity|]. split; [lia|]. auto.
Qed.

(* what is left of the target once the pending rows are counted *)
Definition rest_flat (cur : pending) (todo : irreps) : list irrep :=
  match todo with [] => [] | (tm, tir) :: todo => repeat tir (tm - pmul_of cur) ++ flat todo end.
Definition good (s : shape) (cur : pending) (todo : irreps) (tg : list bool) (rw : idx -> list (list R)) : Prop :=
  match todo with
  | [] => cur = PInt 0 /\ tg = [] /\ forall i, valid s i -> rw i = []
  | (tm, tir) :: _ => length tg < tm /\ pend s (ir_dim tir) cur tg rw
  end.

Lemma good_start s todo : (match todo with [] => True | m :: _ => 0 < fst m end) -> good s (PInt 0) todo [] (fun _ => []).
Proof. destruct todo as [|[tm tir] todo]; cbn; auto. Qed.
Lemma rest_flat_start todo : rest_flat (PInt 0) todo = flat todo.
Proof. destruct todo as [|[tm tir] todo]; [reflexivity|]. cbn. rewrite Nat.sub_0_r. reflexivity. Qed.

Lemma repeat_prefix (ir tir : irrep) m n u v : repeat ir m ++ u = repeat tir n ++ v -> 0 < m -> 0 < n ->
  ir = tir /\ (m <= n -> u = repeat tir (n - m) ++ v) /\ (n < m -> repeat ir (m - n) ++ u = v).
Proof.
  intros E Hm Hn. assert (ir = tir) by (destruct m, n; try lia; cbn in E; congruence). subst tir. split; [reflexivity|]. split.
  - intros H. replace n with (m + (n - m)) in E by lia. rewrite repeat_app, <- app_assoc in E. apply app_inv_head in E. exact E.
  - intros H. replace m with (n + (m - n)) in E by lia. rewrite repeat_app, <- app_assoc in E. apply app_inv_head in E. exact E.
Qed.

Lemma firstn_skipn_app2 {A} (a b c : list A) k : k <= length (a ++ b) -> k = length (a ++ b) -> firstn k (a ++ b ++ c) = a ++ b /\ skipn k (a ++ b ++ c) = c.
Proof. intros _ ->. rewrite app_assoc. split; [apply firstn_length_app|apply skipn_length_app]; reflexivity. Qed.

Lemma rechunk_inner_ok s ir rest : forall fuel mul y cur todo out tg rw,
  mul < fuel -> wf_opt s (mul, ir) y -> good s cur todo tg rw -> rest_flat cur todo = repeat ir mul ++ rest ->
  exists cur' todo' new tg' rw',
    rechunk_inner fuel s (ir_dim ir) mul y cur todo out = Some (Ok (cur', todo', out ++ new)) /\
    good s cur' todo' tg' rw' /\ rest_flat cur' todo' = rest /\
    forall tl rl fin, emits s todo' (tg' ++ tl) (fun i => rw' i ++ rl i) fin ->
      emits s todo (tg ++ repeat (is_none y) mul ++ tl) (fun i => rw i ++ rows_of (mul, ir) y i ++ rl i) (new ++ fin).
Proof.
  induction fuel as [|fuel IH]; intros mul y cur todo out tg rw Hf W G E; [lia|]. cbn [rechunk_inner].
  destruct (Nat.eqb_spec mul 0) as [->|Hmul].
  - exists cur, todo, [], tg, rw. rewrite app_nil_r. split; [reflexivity|]. split; [exact G|]. split; [exact E|].
    intros tl rl fin H. cbn [repeat app]. eapply emits_ext; [|exact H]. intros i Hi. cbv beta.
    destruct (rows_of_wf _ _ _ _ W Hi) as [L _]. cbn in L. destruct (rows_of (0, ir) y i); [reflexivity|discriminate].
  - destruct todo as [|[tm tir] todo].
    { destruct mul; [lia|]. discriminate. }
    cbn [good] in G. destruct G as [Ht P]. pose proof (pend_pmul _ _ _ _ _ P) as Pm. cbn [rest_flat] in E. rewrite Pm in *.
    destruct (repeat_prefix ir tir mul (tm - length tg) rest (flat todo)) as (<- & Ele & Egt); [symmetry; exact E|lia|lia|].
    destruct (Nat.leb_spec mul (tm - length tg)) as [Hle|Hgt].
    + (* the whole remaining chunk is taken *)
      specialize (Ele Hle). clear Egt. cbv iota beta.
      pose proof (absorb_pend s ir cur tg rw mul y P W ltac:(lia)) as P'. rewrite (pend_pmul _ _ _ _ _ P'), app_length, repeat_length.
      destruct (Nat.eqb_spec (length tg + mul) tm) as [Hd|Hd].
      * destruct (skip_zeros todo) as [zs rst] eqn:Ez. destruct (skip_zeros_spec _ _ _ Ez) as (F & Pz & Hz).
        set (o := match absorb s (ir_dim ir) cur mul y with PInt _ => None | PArr c => Some c end).
        exists (PInt 0), rst, (o :: zs), [], (fun _ => []). split; [|split; [|split]].
        { destruct fuel; [lia|]. reflexivity. }
        { apply good_start, Pz. }
        { rewrite rest_flat_start, F, Ele. replace (tm - length tg - mul) with 0 by lia. reflexivity. }
        intros tl rl fin H. cbn [app] in H |- *. cbn [emits fst]. rewrite !app_length, repeat_length. split; [lia|].
        replace (firstn tm (tg ++ repeat (is_none y) mul ++ tl)) with (tg ++ repeat (is_none y) mul)
          by (symmetry; apply (firstn_skipn_app2 tg _ tl tm); rewrite app_length, repeat_length; lia).
        replace (skipn tm (tg ++ repeat (is_none y) mul ++ tl)) with tl
          by (symmetry; apply (firstn_skipn_app2 tg _ tl tm); rewrite app_length, repeat_length; lia).
        assert (RL : forall i, valid s i -> tm = length (rw i ++ rows_of (mul, ir) y i)).
        { intros i Hi. rewrite app_length, (pend_rows_length _ _ _ _ _ _ P Hi). destruct (rows_of_wf _ _ _ _ W Hi) as [-> _]. cbn. lia. }
        split.
        { pose proof (pend_emitted s (tm, ir) _ _ _ P') as Q. rewrite app_length, repeat_length in Q. specialize (Q Hd). fold o in Q.
          destruct Q as (Q1 & Q2 & Q3). split; [exact Q1|]. split; [exact Q2|]. intros i Hi. rewrite Q3 by exact Hi.
          symmetry. apply (firstn_skipn_app2 (rw i) _ (rl i) tm); [specialize (RL i Hi); lia|apply RL, Hi]. }
        apply Hz. eapply emits_ext; [|exact H]. intros i Hi. cbv beta.
        symmetry. apply (firstn_skipn_app2 (rw i) _ (rl i) tm); [specialize (RL i Hi); lia|apply RL, Hi].
      * assert (Hz : skip_zeros ((tm, ir) :: todo) = ([], (tm, ir) :: todo)) by (destruct tm; [lia|reflexivity]). rewrite Hz.
        exists (absorb s (ir_dim ir) cur mul y), ((tm, ir) :: todo), [], (tg ++ repeat (is_none y) mul), (fun i => rw i ++ rows_of (mul, ir) y i).
        split; [|split; [|split]].
        { destruct fuel; [lia|]. cbn [rechunk_inner]. rewrite app_nil_r. reflexivity. }
        { cbn [good]. rewrite app_length, repeat_length. split; [lia|exact P']. }
        { cbn [rest_flat]. rewrite (pend_pmul _ _ _ _ _ P'), app_length, repeat_length, Ele. f_equal. f_equal. lia. }
        intros tl rl fin H. cbn [app]. rewrite <- app_assoc in H. eapply emits_ext; [|exact H]. intros i Hi. cbv beta. rewrite <- app_assoc. reflexivity.
    + (* the chunk is split *)
      specialize (Egt Hgt). clear Ele. set (k := tm - length tg) in *. assert (Hk : 0 < k) by lia.
      set (yx := match y with None => (None, None) | Some c => (Some (chunk_take k c), Some (chunk_drop k c)) end).
      assert (Wx : wf_opt s (k, ir) (fst yx)).
      { destruct y as [c|]; [|exact I]. destruct W as (W1 & W2 & W3 & W4). cbn in *. unfold wf_chunk. cbn. rewrite W2. repeat split; auto; [lia| |].
        - rewrite firstn_length. destruct (W4 i) as [-> _]; auto. lia.
        - destruct (W4 i) as [_ F]; auto. rewrite <- (firstn_skipn k (c_val c i)) in F. apply Forall_app in F. apply F. }
      assert (Wy : wf_opt s (mul - k, ir) (snd yx)).
      { destruct y as [c|]; [|exact I]. destruct W as (W1 & W2 & W3 & W4). cbn in *. unfold wf_chunk. cbn. rewrite W2. repeat split; auto.
        - rewrite skipn_length. destruct (W4 i) as [-> _]; auto.
        - destruct (W4 i) as [_ F]; auto. rewrite <- (firstn_skipn k (c_val c i)) in F. apply Forall_app in F. apply F. }
      assert (Nx : is_none (fst yx) = is_none y /\ is_none (snd yx) = is_none y) by (destruct y; split; reflexivity). destruct Nx as [Nx Ny].
      assert (Rxy : forall i, valid s i -> rows_of (k, ir) (fst yx) i ++ rows_of (mul - k, ir) (snd yx) i = rows_of (mul, ir) y i).
      { intros i Hi. destruct y as [c|]; [apply firstn_skipn|]; cbn [yx fst snd rows_of]. rewrite zeros_rows_app. f_equal. lia. }
      destruct yx as [yx1 yx2]. cbn [fst snd] in *. cbv iota beta.
      pose proof (absorb_pend s ir cur tg rw k yx1 P Wx Hk) as P'. rewrite (pend_pmul _ _ _ _ _ P'), app_length, repeat_length.
      replace (length tg + k) with tm by (unfold k; lia). rewrite Nat.eqb_refl.
      destruct (skip_zeros todo) as [zs rst] eqn:Ez. destruct (skip_zeros_spec _ _ _ Ez) as (F & Pz & Hz).
      set (o := match absorb s (ir_dim ir) cur k yx1 with PInt _ => None | PArr c => Some c end).
      destruct (IH (mul - k) yx2 (PInt 0) rst (out ++ o :: zs) [] (fun _ => [])) as (cur' & todo' & new & tg' & rw' & E1 & E2 & E3 & E4);
        [lia|exact Wy|apply good_start, Pz|rewrite rest_flat_start, F; symmetry; exact Egt|].
      exists cur', todo', (o :: zs ++ new), tg', rw'. split; [|split; [|split]].
      { rewrite E1. rewrite <- app_assoc. reflexivity. }
      { exact E2. }
      { exact E3. }
      intros tl rl fin H. specialize (E4 tl rl fin H). cbn [app] in E4 |- *. rewrite <- app_assoc. cbn [emits fst].
      rewrite !app_length, repeat_length. split; [lia|].
      replace (repeat (is_none y) mul) with (repeat (is_none y) k ++ repeat (is_none y) (mul - k)) by (rewrite <- repeat_app; f_equal; lia).
      rewrite <- (app_assoc (repeat _ k)).
      assert (TL : tm = length (tg ++ repeat (is_none y) k)) by (rewrite app_length, repeat_length; unfold k; lia).
      destruct (firstn_skipn_app2 tg (repeat (is_none y) k) (repeat (is_none y) (mul - k) ++ tl) tm ltac:(lia) TL) as [-> ->].
      assert (RL : forall i, valid s i -> tm = length (rw i ++ rows_of (k, ir) yx1 i)).
      { intros i Hi. rewrite app_length, (pend_rows_length _ _ _ _ _ _ P Hi). destruct (rows_of_wf _ _ _ _ Wx Hi) as [-> _]. cbn. unfold k. lia. }
      assert (RR : forall i, valid s i -> firstn tm (rw i ++ rows_of (mul, ir) y i ++ rl i) = rw i ++ rows_of (k, ir) yx1 i /\
         skipn tm (rw i ++ rows_of (mul, ir) y i ++ rl i) = rows_of (mul - k, ir) yx2 i ++ rl i).
      { intros i Hi. rewrite <- (Rxy i Hi), <- app_assoc. apply firstn_skipn_app2; [rewrite <- RL by exact Hi; lia|apply RL, Hi]. }
      split.
      { pose proof (pend_emitted s (tm, ir) _ _ _ P') as Q. rewrite Nx in Q. rewrite <- TL in Q. specialize (Q eq_refl). fold o in Q.
        destruct Q as (Q1 & Q2 & Q3). split; [exact Q1|]. split; [exact Q2|]. intros i Hi. rewrite Q3 by exact Hi. symmetry. apply RR, Hi. }
      { apply Hz. rewrite Ny in E4. eapply emits_ext; [|exact E4]. intros i Hi. cbv beta. symmetry. apply RR, Hi. }
Qed.

Lemma rechunk_outer_ok s : forall src cur todo out tg rw,
  Forall (wf_pair s) src -> good s cur todo tg rw -> rest_flat cur todo = flat (map fst src) ->
  exists new, rechunk_outer s src cur todo out = Some (Ok (PInt 0, [], out ++ new)) /\
    emits s todo (tg ++ tags src) (fun i => rw i ++ srows src i) new.
Proof.
  induction src as [|[[mul ir] y] src IH]; intros cur todo out tg rw W G E.
  - destruct todo as [|[tm tir] todo].
    + cbn in G. destruct G as (-> & -> & G). exists []. rewrite app_nil_r. split; [reflexivity|]. cbn. split; [reflexivity|]. intros i Hi. rewrite G by exact Hi. reflexivity.
    + cbn in G, E. destruct G as [Ht P]. rewrite (pend_pmul _ _ _ _ _ P) in E. destruct (tm - length tg) eqn:D; [lia|]. discriminate.
  - inversion W as [|? ? W1 W2]; subst. cbn [map fst] in E. rewrite flat_cons in E.
    destruct (rechunk_inner_ok s ir (flat (map fst src)) (S mul) mul y cur todo out tg rw) as (cur' & todo' & new & tg' & rw' & E1 & E2 & E3 & E4);
      [lia|exact W1|exact G|exact E|].
    destruct (IH cur' todo' (out ++ new) tg' rw' W2 E2 E3) as (new2 & E5 & E6).
    exists (new ++ new2). cbn [rechunk_outer]. rewrite E1, E5, app_assoc. split; [reflexivity|].
    specialize (E4 _ _ _ E6). exact E4.
Qed.

(* ---------- flags ---------- *)
Lemma slices_blocks {A} x (row : list A) : map (fun '(a, b) => list_slice row a b) (slices x) = blocks x row.
Proof.
  unfold slices. enough (G : forall k, map (fun '(a, b) => list_slice row a b) (slices_from k x) = blocks x (skipn k row)) by (apply (G 0)).
  induction x as [|m x IH]; intros k; [reflexivity|]. cbn [slices_from map blocks]. rewrite list_slice_firstn, IH, skipn_skipn. reflexivity.
Qed.
Lemma map_ext_pair {A B C} (f g : A * B -> C) l : (forall a b, f (a, b) = g (a, b)) -> map f l = map g l.
Proof. intros H. apply map_ext. intros []. apply H. Qed.
Lemma rechunk_flags_blocks x target : rechunk_flags x target = map allb (blocks target (feature_flags x)).
Proof. unfold rechunk_flags. rewrite <- slices_blocks, map_map. apply map_ext_pair. reflexivity. Qed.

(* every flagged feature is zero *)
Definition masked (ff : list bool) (row : list R) : Prop := Forall2 (fun (f : bool) v => f = true -> v = 0%R) ff row.
Lemma masked_false row : masked (repeat false (length row)) row.
Proof. induction row; cbn; constructor; auto. discriminate. Qed.
Lemma masked_zero b n : (b = true -> True) -> masked (repeat b n) (zero_row n).
Proof. intros _. induction n; cbn; constructor; auto. Qed.

Lemma feature_flags_masked s x : forall fl a, flags_ok s x fl a -> (forall i, valid s i -> length (a i) = dim x) ->
  forall i, valid s i -> masked (flat_map (fun '(z, (mul, ir)) => repeat z (mul * ir_dim ir)) (combine fl x)) (a i).
Proof.
  induction x as [|[mul ir] x IH]; intros [|f fl] a H L i Hi; cbn [flags_ok] in H; try contradiction.
  - specialize (L i Hi). destruct (a i); [constructor|discriminate].
  - destruct H as [H1 H2]. cbn [combine flat_map]. rewrite <- (firstn_skipn (mi_dim (mul, ir)) (a i)). apply Forall2_app.
    + pose proof (L i Hi) as Li. rewrite dim_cons in Li. destruct f.
      * rewrite H1 by auto. apply masked_zero. auto.
      * replace (mul * ir_dim ir) with (length (firstn (mi_dim (mul, ir)) (a i))) by (rewrite firstn_length; unfold mi_dim in *; cbn [fst snd] in *; lia).
        apply masked_false.
    + apply (IH fl _ H2); [|exact Hi]. intros j Hj. rewrite skipn_length, L, dim_cons by exact Hj. lia.
Qed.

Lemma masked_all ff row : masked ff row -> allb ff = true -> row = zero_row (length row).
Proof.
  induction 1 as [|f v ff row H M IH]; intros A; [reflexivity|]. cbn in A. apply andb_true_iff in A as [-> A]. cbn. rewrite H by reflexivity. f_equal. apply IH, A.
Qed.
Lemma Forall2_firstn {A B} (P : A -> B -> Prop) l l' k : Forall2 P l l' -> Forall2 P (firstn k l) (firstn k l').
Proof. intros H. revert k. induction H; intros [|k]; cbn; constructor; auto. Qed.
Lemma Forall2_skipn {A B} (P : A -> B -> Prop) l l' k : Forall2 P l l' -> Forall2 P (skipn k l) (skipn k l').
Proof. intros H. revert k. induction H; intros [|k]; cbn; auto; constructor; auto. Qed.

Lemma masked_flags_ok s : forall x ff a, (forall i, valid s i -> length (a i) = dim x) -> (forall i, valid s i -> masked ff (a i)) ->
  flags_ok s x (map allb (blocks x ff)) a.
Proof.
  induction x as [|m x IH]; intros ff a L M; [exact I|]. cbn [blocks map flags_ok]. split.
  - intros A i Hi. assert (Lf : length (firstn (mi_dim m) (a i)) = mi_dim m) by (rewrite firstn_length, L, dim_cons by exact Hi; lia).
    rewrite <- Lf at 2. eapply masked_all; [|exact A]. apply Forall2_firstn, M, Hi.
  - apply IH.
    + intros i Hi. rewrite skipn_length, L, dim_cons by exact Hi. lia.
    + intros i Hi. apply Forall2_skipn, M, Hi.
Qed.

Lemma rechunk_flags_ok x target : coherent x -> dim target = dim (irr x) -> flags_ok (lead x) target (rechunk_flags x target) (arr x).
Proof.
  intros (L & F & _) D. rewrite rechunk_flags_blocks. apply masked_flags_ok.
  - intros i Hi. rewrite D. auto.
  - intros i Hi. apply (feature_flags_masked (lead x) (irr x) _ _ F L i Hi).
Qed.

(* the feature flags as a function of the tags *)
Definition fflags (tg : list bool) (irs : list irrep) : list bool := flat_map (fun '(z, ir) => repeat z (ir_dim ir)) (combine tg irs).
Lemma combine_app' {A B} (a a' : list A) (b b' : list B) : length a = length b -> combine (a ++ a') (b ++ b') = combine a b ++ combine a' b'.
Proof. revert b. induction a; intros [|y b] H; try discriminate; [reflexivity|]. cbn. rewrite IHa by (injection H; auto). reflexivity. Qed.
Lemma fflags_app a a' b b' : length a = length b -> fflags (a ++ a') (b ++ b') = fflags a b ++ fflags a' b'.
Proof. intros H. unfold fflags. rewrite combine_app', flat_map_app by exact H. reflexivity. Qed.
Lemma fflags_repeat tg ir : length (fflags tg (repeat ir (length tg))) = length tg * ir_dim ir /\ allb (fflags tg (repeat ir (length tg))) = allb tg.
Proof.
  induction tg as [|z tg [IH1 IH2]]; [split; reflexivity|]. cbn [length repeat].
  assert (E : fflags (z :: tg) (ir :: repeat ir (length tg)) = repeat z (ir_dim ir) ++ fflags tg (repeat ir (length tg))) by reflexivity.
  rewrite E, app_length, IH1, allb_app, IH2, repeat_length, allb_repeat by apply ir_dim_pos. split; reflexivity.
Qed.
Lemma fflags_const z ir mul : fflags (repeat z mul) (repeat ir mul) = repeat z (mul * ir_dim ir).
Proof.
  induction mul; [reflexivity|]. assert (E : fflags (repeat z (S mul)) (repeat ir (S mul)) = repeat z (ir_dim ir) ++ fflags (repeat z mul) (repeat ir mul)) by reflexivity.
  rewrite E, IHmul, <- repeat_app. reflexivity.
Qed.

Lemma feature_flags_tags x : coherent x -> feature_flags x = fflags (tags (pairs x)) (flat (irr x)).
Proof.
  intros H. unfold feature_flags, pairs. rewrite (chunks_flags x H).
  pose proof (chunks_length x H) as L. revert L. generalize (chunks x) (irr x). intros cs y. revert y.
  induction cs as [|c cs IH]; intros [|[mul ir] y] L; try discriminate; [reflexivity|]. cbn [map combine flat_map tags fst snd].
  rewrite flat_cons. fold (tags (combine y cs)). rewrite fflags_app by (rewrite !repeat_length; reflexivity).
  rewrite fflags_const, IH by (injection L; auto). reflexivity.
Qed.

Lemma emits_flags s : forall x tg rw out, emits s x tg rw out -> map allb (blocks x (fflags tg (flat x))) = map is_none out.
Proof.
  induction x as [|[mul ir] x IH]; intros tg rw [|o out] H; cbn [emits] in H; try contradiction; [reflexivity|].
  destruct H as (Hl & (H1 & _) & H2). cbn [fst] in *. rewrite flat_cons. set (t1 := firstn mul tg) in *. set (t2 := skipn mul tg) in *.
  assert (L1 : length t1 = mul) by (unfold t1; rewrite firstn_length; lia).
  assert (Et : tg = t1 ++ t2) by (symmetry; apply firstn_skipn). rewrite Et.
  rewrite fflags_app by (rewrite repeat_length; exact L1).
  destruct (fflags_repeat t1 ir) as [F1 F2]. rewrite L1 in F1, F2. cbn [blocks map].
  rewrite firstn_length_app by exact F1. rewrite skipn_length_app by exact F1.
  rewrite F2, H1, (IH _ _ _ H2). reflexivity.
Qed.

(* rows of the stream have the widths of the flattened irreps *)
Definition row_widths (irs : list irrep) (rows : list (list R)) : Prop := Forall2 (fun ir r => length r = ir_dim ir) irs rows.
Lemma repeat_widths ir rows : Forall (fun r : list R => length r = ir_dim ir) rows -> row_widths (repeat ir (length rows)) rows.
Proof. induction 1; constructor; assumption. Qed.
Lemma srows_widths s src i : Forall (wf_pair s) src -> valid s i -> row_widths (flat (map fst src)) (srows src i).
Proof.
  intros H Hi. induction H as [|[[mul ir] c] src H1 H2 IH]; [constructor|]. cbn [map fst srows flat_map]. rewrite flat_cons. apply Forall2_app; [|exact IH].
  destruct (rows_of_wf _ _ _ _ H1 Hi) as [L F]. cbn [fst snd] in *. apply repeat_widths in F. rewrite L in F. exact F.
Qed.
Lemma emits_chunks_ok s : forall x tg rw out a, emits s x tg rw out ->
  (forall i, valid s i -> row_widths (flat x) (rw i)) -> (forall i, valid s i -> a i = concat (rw i)) ->
  chunks_ok s x (map is_none out) out a.
Proof.
  induction x as [|[mul ir] x IH]; intros tg rw [|o out] a H Hw Ha; cbn [emits] in H; try contradiction; [exact I|].
  destruct H as (Hl & (H1 & H2 & H3) & H4). cbn [fst] in *. cbn [map chunks_ok].
  assert (S : forall i, valid s i -> row_widths (repeat ir mul) (firstn mul (rw i)) /\ row_widths (flat x) (skipn mul (rw i))).
  { intros i Hi. specialize (Hw i Hi). rewrite flat_cons in Hw. split.
    - apply (Forall2_firstn _ _ _ mul) in Hw. rewrite firstn_app, repeat_length, Nat.sub_diag, app_nil_r, firstn_all2 in Hw by (rewrite repeat_length; lia). exact Hw.
    - apply (Forall2_skipn _ _ _ mul) in Hw. rewrite skipn_length_app in Hw by apply repeat_length. exact Hw. }
  assert (C : forall i, valid s i -> length (concat (firstn mul (rw i))) = mi_dim (mul, ir)).
  { intros i Hi. destruct (S i Hi) as [S1 _]. unfold mi_dim. cbn [fst snd]. rewrite (concat_length_widths _ (ir_dim ir)).
    - pose proof (Forall2_length _ _ _ S1) as X. rewrite repeat_length in X. rewrite <- X. reflexivity.
    - clear -S1. revert S1. generalize (firstn mul (rw i)). induction mul; intros l S1; inversion S1; subst; constructor; auto. }
  assert (B : forall i, valid s i -> a i = concat (firstn mul (rw i)) ++ concat (skipn mul (rw i))).
  { intros i Hi. rewrite Ha, <- concat_app, firstn_skipn by exact Hi. reflexivity. }
  split.
  - destruct o as [c|]; [|reflexivity]. cbn. split; [reflexivity|]. split; [exact H2|]. intros i Hi. rewrite (B i Hi), firstn_length_app by (apply C, Hi).
    specialize (H3 i Hi). cbn in H3. rewrite H3. reflexivity.
  - apply (IH _ _ _ _ H4); [intros i Hi; apply S, Hi|]. intros i Hi. cbv beta. rewrite (B i Hi), skipn_length_app by (apply C, Hi). reflexivity.
Qed.

Lemma emits_check s : forall x tg rw out fl, emits s x tg rw out -> fl = map is_none out -> rechunk_check x out fl = Ok tt.
Proof.
  induction x as [|[mul ir] x IH]; intros tg rw [|o out] fl H ->; cbn [emits] in H; try contradiction; [reflexivity|].
  destruct H as (_ & (_ & H2 & _) & H4). cbn [map rechunk_check is_none]. destruct o as [c|]; cbn [is_none assert bind].
  - destruct H2 as (_ & -> & -> & _). cbn [fst snd]. rewrite !Nat.eqb_refl. cbn. eapply IH; [exact H4|reflexivity].
  - eapply IH; [exact H4|reflexivity].
Qed.
Lemma emits_length s : forall x tg rw out, emits s x tg rw out -> length out = length x.
Proof. induction x; intros tg rw [|o out] H; cbn [emits] in H; try contradiction; [reflexivity|]. cbn. f_equal. eapply IHx. apply H. Qed.

Lemma srows_arr x : coherent x -> forall i, valid (lead x) i -> arr x i = concat (srows (pairs x) i).
Proof.
  intros H i Hi. rewrite <- (chunks_row_arr x H i Hi). unfold chunks_row, srows, pairs. induction (combine (irr x) (chunks x)) as [|[m c] l IH]; [reflexivity|].
  cbn [flat_map fst snd]. rewrite concat_app, <- IH, den_rows. reflexivity.
Qed.

Theorem rechunk_opt_yields x target : coherent x -> simplify (irr x) = simplify target ->
  exists r, rechunk_opt x target = Some r /\ yields r target (lead x) (arr x).
Proof.
  intros H Hs. apply simplify_iff in Hs as Hflat. unfold rechunk_opt. rewrite Hs, irreps_eqb_refl. cbn [negb].
  assert (D : dim target = dim (irr x)) by (rewrite !dim_flat, Hflat; reflexivity).
  destruct (irreps_eqb (irr x) target) eqn:Eq.
  - apply irreps_eqb_eq in Eq. eexists. split; [reflexivity|]. exists x. repeat split; auto; apply H.
  - pose proof (rechunk_flags_ok x target H D) as FO. pose proof (flags_ok_length _ _ _ _ FO) as FL.
    destruct (chs x) as [cs|] eqn:Ec.
    + assert (Ecs : cs = chunks x) by (unfold chunks; rewrite Ec; reflexivity). rewrite Ecs. clear Ecs cs Ec.
      fold (pairs x). destruct (skip_zeros target) as [zs todo] eqn:Ez. destruct (skip_zeros_spec _ _ _ Ez) as (F & Pz & Hz).
      destruct (rechunk_outer_ok (lead x) (pairs x) (PInt 0) todo zs [] (fun _ => [])) as (new & E1 & E2).
      * apply pairs_wf, H.
      * apply good_start, Pz.
      * rewrite rest_flat_start, F, pairs_fst by exact H. symmetry. exact Hflat.
      * rewrite E1. cbn [app] in E2. apply Hz in E2. eexists. split; [reflexivity|].
        pose proof (emits_flags _ _ _ _ _ E2) as EF. rewrite <- Hflat, <- (feature_flags_tags x H), <- rechunk_flags_blocks in EF.
        rewrite (emits_length _ _ _ _ _ E2), Nat.eqb_refl. cbn [assert bind]. rewrite (emits_check _ _ _ _ _ _ E2 EF). cbn [bind].
        assert (CO : chunks_ok (lead x) target (rechunk_flags x target) (zs ++ new) (arr x)).
        { rewrite EF. eapply emits_chunks_ok; [exact E2| |apply srows_arr, H]. intros i Hi. rewrite <- Hflat, <- (pairs_fst x H). eapply srows_widths; [apply pairs_wf, H|exact Hi]. }
        rewrite mkIA_ok; [|symmetry; exact D|split; [eapply wf_shapes_ok, chunks_ok_wf, CO|apply (emits_length _ _ _ _ _ E2)]|exact FL].
        eexists. split; [reflexivity|]. cbn [irr lead arr]. split; [reflexivity|]. split; [reflexivity|]. split; [|reflexivity].
        unfold coherent, zero_flags. cbn [irr lead arr zf chs]. split; [|split; assumption]. intros i Hi. rewrite D. apply H, Hi.
    + eexists. split; [reflexivity|]. rewrite mkIA_ok; [|symmetry; exact D|exact I|exact FL].
      eexists. split; [reflexivity|]. cbn [irr lead arr]. split; [reflexivity|]. split; [reflexivity|]. split; [|reflexivity].
      unfold coherent, zero_flags. cbn [irr lead arr zf chs]. split; [|split; [assumption|exact I]]. intros i Hi. rewrite D. apply H, Hi.
Qed.

Lemma rechunk_yields x target : coherent x -> simplify (irr x) = simplify target -> yields (rechunk x target) target (lead x) (arr x).
Proof. intros H Hs. destruct (rechunk_opt_yields x target H Hs) as (r & E & Y). unfold rechunk. rewrite E. exact Y. Qed.
Lemma rechunk_rejects x target : simplify (irr x) <> simplify target -> rechunk x target = Err AssertionError.
Proof.
  intros H. unfold rechunk, rechunk_opt. destruct (irreps_eqb (simplify (irr x)) (simplify target)) eqn:E; [|reflexivity]. apply irreps_eqb_eq in E. contradiction.
Qed.

Lemma simplify_unify x : simplify (unify x) = simplify x.
Proof. apply simplify_iff, flat_unify. Qed.
Lemma ia_simplify_yields x : coherent x -> yields (ia_simplify x) (simplify (irr x)) (lead x) (arr x).
Proof. intros H. apply rechunk_yields; [exact H|]. symmetry. apply simplify_idem. Qed.
Lemma ia_unify_yields x : coherent x -> yields (ia_unify x) (unify (irr x)) (lead x) (arr x).
Proof. intros H. apply rechunk_yields; [exact H|]. symmetry. apply simplify_unify. Qed.
Lemma ia_regroup_yields x : coherent x -> yields (ia_regroup x) (regroup_irreps (irr x)) (lead x)
    (fun i => concat (map (fun k => nth k (blocks (irr x) (arr x i)) []) (sort_inv_list (irr x)))).
Proof.
  intros H. destruct (sort_yields x H) as (y & E & E1 & E2 & E3 & E4). unfold ia_regroup. rewrite E. cbn [bind].
  destruct (ia_simplify_yields y E3) as (z & F & F1 & F2 & F3 & F4). exists z. rewrite F1, F2, E1, E2. repeat split; auto; try apply F3.
  intros i Hi. rewrite F4 by (rewrite E2; exact Hi). apply E4, Hi.
Qed.
