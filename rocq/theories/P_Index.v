(** C90: indexing nodes by position and by slices. *)
From Coq Require Import Sorted.
From Verif Require Export IndexSpec.
From Verif Require Import P_Node TreeLemmas NodeProofs.
Local Open Scope Z_scope.

(** ** Lists *)
Lemma sorted_unique (l : list Z) : forall m, StronglySorted Z.lt l -> StronglySorted Z.lt m -> (forall x, In x l <-> In x m) -> l = m.
Proof.
  induction l as [|a l IH]; intros m Hl Hm H.
  - destruct m as [|b m]; [reflexivity|]. exfalso. apply (proj2 (H b)). now left.
  - destruct m as [|b m]; [exfalso; apply (proj1 (H a)); now left|]. inversion_clear Hl as [|? ? Hl' Fl]. inversion_clear Hm as [|? ? Hm' Fm]. rewrite Forall_forall in Fl, Fm.
    assert (a = b). { destruct (proj1 (H a) (or_introl eq_refl)) as [E|Ha]; [auto|]. destruct (proj2 (H b) (or_introl eq_refl)) as [E|Hb]; [auto|]. specialize (Fl b Hb). specialize (Fm a Ha). lia. }
    subst b. f_equal. apply IH; [assumption..|]. intros x. split; intros Hx.
    + destruct (proj1 (H x) (or_intror Hx)) as [<-|E]; [specialize (Fl a Hx); lia|exact E].
    + destruct (proj2 (H x) (or_intror Hx)) as [<-|E]; [specialize (Fm a Hx); lia|exact E].
Qed.
Lemma sorted_filter (f : Z -> bool) l : StronglySorted Z.lt l -> StronglySorted Z.lt (filter f l).
Proof.
  induction 1 as [|a l Hl IH F]; [constructor|]. cbn. destruct (f a); [|exact IH]. constructor; [exact IH|]. rewrite Forall_forall in *. intros x Hx. apply filter_In in Hx as [Hx _]. now apply F.
Qed.
Definition positions (n : nat) : list Z := map Z.of_nat (seq 0 n).
Lemma sorted_progression a c k s : 0 < c -> StronglySorted Z.lt (map (fun j => a + Z.of_nat j * c) (seq s k)).
Proof.
  intros Hc. revert s. induction k as [|k IH]; intros s; [constructor|]. cbn. constructor; [apply IH|]. apply Forall_map, Forall_forall. intros j Hj. apply in_seq in Hj. nia.
Qed.
Lemma sorted_positions n : StronglySorted Z.lt (positions n).
Proof. unfold positions. rewrite (map_ext Z.of_nat (fun j => 0 + Z.of_nat j * 1)) by (intros; lia). now apply sorted_progression. Qed.
Lemma in_positions n p : In p (positions n) <-> 0 <= p < Z.of_nat n.
Proof.
  unfold positions. rewrite in_map_iff. split; [intros (j & <- & H); apply in_seq in H; lia|]. intros H. exists (Z.to_nat p). split; [lia|]. apply in_seq. lia.
Qed.
Lemma sorted_rev_progression a c k : c < 0 -> StronglySorted Z.lt (rev (map (fun j => a + Z.of_nat j * c) (seq 0 k))).
Proof.
  intros Hc. induction k as [|k IH]; [constructor|]. rewrite seq_S, map_app, rev_app_distr. cbn. constructor; [exact IH|]. apply Forall_forall. intros x Hx. apply in_rev, in_map_iff in Hx as (j & <- & Hj). apply in_seq in Hj. nia.
Qed.

Section Items.
  Context {X : Type}.
  Implicit Types l : list X.
  Lemma index_ok l p : 0 <= p < Z.of_nat (length l) -> exists x, list_index l p = Ok x /\ nth_error l (Z.to_nat p) = Some x.
  Proof.
    intros H. unfold list_index. destruct (Z.ltb_spec p 0); [lia|]. destruct (Z.leb_spec 0 p); [|lia]. destruct (Z.ltb_spec p (Z.of_nat (length l))); [|lia]. cbn [andb].
    destruct (nth_error l (Z.to_nat p)) as [x|] eqn:E; [now exists x|]. apply nth_error_None in E. lia.
  Qed.
  Lemma indices_ok l ks (f : nat -> Z) : (forall k, In k ks -> 0 <= f k < Z.of_nat (length l)) ->
    exists xs, mapM (fun k => list_index l (f k)) ks = Ok xs /\ map Some xs = map (fun p => nth_error l (Z.to_nat p)) (map f ks).
  Proof.
    induction ks as [|k ks IH]; intros H; [now exists []|]. cbn [mapM map]. destruct (index_ok l (f k)) as (x & E1 & E2); [apply H; now left|]. destruct IH as (xs & E3 & E4); [intros; apply H; now right|].
    exists (x :: xs). rewrite E1. cbn [bind]. rewrite E3. cbn [bind map]. now rewrite E4, E2.
  Qed.
  Lemma at_positions_some sel l : map Some (at_positions sel l) = map (fun p => nth_error l (Z.to_nat p)) (filter sel (positions (length l))).
  Proof.
    unfold at_positions, positions.
    assert (G : forall m s, (forall i, nth_error m i = nth_error l (s + i)) -> map Some (map snd (filter (fun ix => sel (Z.of_nat (fst ix))) (combine (seq s (length m)) m))) =
      map (fun p => nth_error l (Z.to_nat p)) (filter sel (map Z.of_nat (seq s (length m))))).
    { induction m as [|x m IH]; intros s H; [reflexivity|]. cbn [length seq combine filter map fst].
      assert (R : forall i, nth_error m i = nth_error l (S s + i)) by (intros i; specialize (H (S i)); cbn in H; rewrite H; f_equal; lia).
      destruct (sel (Z.of_nat s)); cbn [map snd]; [|now apply IH]. f_equal; [|now apply IH]. specialize (H 0%nat). cbn in H. rewrite Nat2Z.id. rewrite H. f_equal. lia. }
    apply G. reflexivity.
  Qed.
  Lemma some_inj (a : list X) : forall b, map Some a = map Some b -> a = b.
  Proof. induction a as [|x a IH]; intros [|y b] H; try discriminate; [reflexivity|]. cbn in H. injection H as -> H. f_equal. now apply IH. Qed.

  Lemma slice_forward l a b c sel : 0 < c -> 0 <= a -> b <= Z.of_nat (length l) ->
    (forall p, 0 <= p < Z.of_nat (length l) -> (sel p = true <-> a <= p < b /\ (p - a) mod c = 0)) ->
    mapM (fun k => list_index l (a + Z.of_nat k * c)) (seq 0 (slice_length a b c)) = Ok (at_positions sel l).
  Proof.
    intros Hc Ha Hb Hsel. set (K := slice_length a b c).
    assert (HK : forall k, (k < K)%nat <-> a + Z.of_nat k * c < b).
    { intros k. unfold K, slice_length. destruct (Z.ltb_spec c 0); [lia|]. destruct (Z.ltb_spec a b); [|split; [lia|nia]].
      assert (D : 0 <= (b - a - 1) / c) by (apply Z.div_pos; lia). assert (M := Z.div_mod (b - a - 1) c ltac:(lia)). assert (B := Z.mod_pos_bound (b - a - 1) c Hc). split; intros H'; [|].
      - assert (Z.of_nat k <= (b - a - 1) / c) by lia. nia.
      - assert (Z.of_nat k <= (b - a - 1) / c); [|lia]. apply Z.div_le_lower_bound; lia. }
    destruct (indices_ok l (seq 0 K) (fun k => a + Z.of_nat k * c)) as (xs & E1 & E2).
    - intros k Hk. apply in_seq in Hk. destruct Hk as [_ Hk]. cbn [Nat.add] in Hk. apply HK in Hk. nia.
    - rewrite E1. f_equal. apply some_inj. rewrite E2, at_positions_some. f_equal. apply sorted_unique; [now apply sorted_progression|apply sorted_filter, sorted_positions|].
      intros p. rewrite in_map_iff, filter_In, in_positions. split.
      + intros (k & <- & Hk). apply in_seq in Hk. destruct Hk as [_ Hk]. cbn [Nat.add] in Hk. apply HK in Hk. assert (R : 0 <= a + Z.of_nat k * c < Z.of_nat (length l)) by nia. split; [exact R|]. apply Hsel; [exact R|]. split; [nia|].
        replace (a + Z.of_nat k * c - a) with (Z.of_nat k * c) by ring. apply Z_mod_mult.
      + intros [R H]. apply Hsel in H; [|exact R]. destruct H as [H1 H2]. apply Z_div_exact_full_2 in H2; [|lia]. assert (D : 0 <= (p - a) / c) by (apply Z.div_pos; lia). exists (Z.to_nat ((p - a) / c)). rewrite Z2Nat.id by exact D. split; [lia|].
        apply in_seq. split; [lia|]. cbn [Nat.add]. apply HK. rewrite Z2Nat.id by exact D. lia.
  Qed.
  Lemma slice_backward l a b c sel : c < 0 -> a < Z.of_nat (length l) -> -1 <= b ->
    (forall p, 0 <= p < Z.of_nat (length l) -> (sel p = true <-> b < p <= a /\ (a - p) mod (- c) = 0)) ->
    mapM (fun k => list_index l (a + Z.of_nat k * c)) (seq 0 (slice_length a b c)) = Ok (rev (at_positions sel l)).
  Proof.
    intros Hc Ha Hb Hsel. set (K := slice_length a b c).
    assert (HK : forall k, (k < K)%nat <-> b < a + Z.of_nat k * c).
    { intros k. unfold K, slice_length. destruct (Z.ltb_spec c 0); [|lia]. destruct (Z.ltb_spec b a); [|split; [lia|nia]].
      assert (D : 0 <= (a - b - 1) / (- c)) by (apply Z.div_pos; lia). assert (M := Z.div_mod (a - b - 1) (- c) ltac:(lia)). assert (B := Z.mod_pos_bound (a - b - 1) (- c) ltac:(lia)). split; intros H'; [|].
      - assert (Z.of_nat k <= (a - b - 1) / (- c)) by lia. nia.
      - assert (Z.of_nat k <= (a - b - 1) / (- c)); [|lia]. apply Z.div_le_lower_bound; lia. }
    destruct (indices_ok l (seq 0 K) (fun k => a + Z.of_nat k * c)) as (xs & E1 & E2).
    - intros k Hk. apply in_seq in Hk. destruct Hk as [_ Hk]. cbn [Nat.add] in Hk. apply HK in Hk. nia.
    - rewrite E1. f_equal. rewrite <- (rev_involutive xs). f_equal. apply some_inj. rewrite at_positions_some, map_rev, E2, <- map_rev. f_equal. apply sorted_unique; [now apply sorted_rev_progression|apply sorted_filter, sorted_positions|].
      intros p. rewrite <- in_rev, in_map_iff, filter_In, in_positions. split.
      + intros (k & <- & Hk). apply in_seq in Hk. destruct Hk as [_ Hk]. cbn [Nat.add] in Hk. apply HK in Hk. assert (R : 0 <= a + Z.of_nat k * c < Z.of_nat (length l)) by nia. split; [exact R|]. apply Hsel; [exact R|]. split; [nia|].
        replace (a - (a + Z.of_nat k * c)) with (Z.of_nat k * - c) by ring. apply Z_mod_mult.
      + intros [R H]. apply Hsel in H; [|exact R]. destruct H as [H1 H2]. apply Z_div_exact_full_2 in H2; [|lia]. assert (D : 0 <= (a - p) / (- c)) by (apply Z.div_pos; lia). exists (Z.to_nat ((a - p) / (- c))). rewrite Z2Nat.id by exact D. split; [lia|].
        apply in_seq. split; [lia|]. cbn [Nat.add]. apply HK. rewrite Z2Nat.id by exact D. lia.
  Qed.
End Items.

(** ** Theorems.  [values] are the children, in order. *)
Section Getitem.
  Context {T A : Type}.
  Variable n : node T A.
  Notation values := (map snd (nch n)).
  Notation N := (Z.of_nat (length (nch n))).
  Lemma values_length : length (nvalues n) = length (nch n).
  Proof. unfold nvalues, dvals. apply map_length. Qed.

  Theorem C90_int i :
    (0 <= i < N -> exists c, nth_error values (Z.to_nat i) = Some c /\ getitem n (IInt i) = Ok (One c)) /\
    (- N <= i < 0 -> exists c, nth_error (rev values) (Z.to_nat (- i - 1)) = Some c /\ getitem n (IInt i) = Ok (One c)) /\
    (i < - N \/ N <= i -> getitem n (IInt i) = Err IndexErr).
  Proof.
    cbn [getitem]. change (nvalues n) with values. assert (L : length values = length (nch n)) by apply map_length. split; [|split].
    - intros H. destruct (index_ok values i) as (c & E1 & E2); [now rewrite L|]. exists c. split; [exact E2|]. now rewrite E1.
    - intros H. destruct (index_ok values (i + N)) as (c & E1 & E2); [rewrite L; lia|]. exists c. split.
      + rewrite <- E2. assert (G : forall (l : list (node T A)) k, (k < length l)%nat -> nth_error (rev l) k = nth_error l (length l - 1 - k)).
        { clear. induction l as [|x l IH]; intros k Hk; [cbn in Hk; lia|]. cbn [rev length] in *. destruct (Nat.eq_dec k (length l)) as [->|Hne].
          - rewrite nth_error_app2 by (rewrite rev_length; lia). rewrite rev_length. replace (length l - length l)%nat with 0%nat by lia. replace (S (length l) - 1 - length l)%nat with 0%nat by lia. reflexivity.
          - rewrite nth_error_app1 by (rewrite rev_length; lia). rewrite IH by lia. replace (S (length l) - 1 - k)%nat with (S (length l - 1 - k)) by lia. reflexivity. }
        rewrite G by (rewrite L; lia). f_equal. rewrite L. lia.
      + unfold list_index in *. rewrite L in *. destruct (Z.ltb_spec i 0); [|lia]. destruct (Z.ltb_spec (i + N) 0); [lia|]. now rewrite E1.
    - intros H. unfold list_index. rewrite L. destruct (Z.ltb_spec i 0); [destruct (Z.leb_spec 0 (i + N)); [lia|reflexivity]|]. destruct (Z.ltb_spec i N); [lia|]. now rewrite andb_false_r.
  Qed.
  Theorem C90_slice (a b c : option Z) : let step := match c with Some z => z | None => 1 end in
    let get := getitem n (ISlice (bound_of a) (bound_of b) (bound_of c)) in
    (step = 0 -> get = Err ValueErr) /\
    (0 < step -> get = Ok (Many (at_positions (forward (or_default a N 0) (or_default b N N) step) values))) /\
    (step < 0 -> get = Ok (Many (rev (at_positions (backward N (or_default a N (N - 1)) (or_default b N (-1)) step) values)))).
  Proof.
    cbv zeta. set (step := match c with Some z => z | None => 1 end). cbn [getitem]. change (nvalues n) with values. assert (L : length values = length (nch n)) by apply map_length.
    assert (U : unpack (bound_of c) 1 = Ok step) by now destruct c. unfold list_slice. rewrite U, L. cbn [bind]. split; [intros ->; reflexivity|]. split; intros Hs.
    - destruct (Z.eqb_spec step 0); [lia|].
      set (x := match a with Some i => adjust N step i | None => 0 end). set (y := match b with Some i => adjust N step i | None => N end).
      assert (E1 : match bound_of a with BNone => Ok (if step <? 0 then N - 1 else 0) | _ => z <- unpack (bound_of a) 0 ;; Ok (adjust N step z) end = Ok x) by (unfold x; destruct a; cbn; [reflexivity|]; destruct (Z.ltb_spec step 0); [lia|reflexivity]).
      assert (E2 : match bound_of b with BNone => Ok (if step <? 0 then -1 else N) | _ => z <- unpack (bound_of b) 0 ;; Ok (adjust N step z) end = Ok y) by (unfold y; destruct b; cbn; [reflexivity|]; destruct (Z.ltb_spec step 0); [lia|reflexivity]).
      rewrite E1, E2. cbn [bind].
      assert (Hx : 0 <= x /\ (x = Z.max 0 (or_default a N 0) \/ N <= x /\ N <= or_default a N 0)).
      { unfold x, or_default, from_end, adjust. destruct a as [i|]; [|lia]. destruct (Z.ltb_spec step 0); [lia|]. destruct (Z.ltb_spec i 0); [destruct (Z.ltb_spec (i + N) 0); lia|]. destruct (Z.leb_spec N i); lia. }
      assert (Hy : y <= N /\ forall p, 0 <= p < N -> (p < y <-> p < or_default b N N)).
      { unfold y, or_default, from_end, adjust. destruct b as [i|]; [|split; lia]. destruct (Z.ltb_spec step 0); [lia|]. destruct (Z.ltb_spec i 0); [destruct (Z.ltb_spec (i + N) 0); split; lia|]. destruct (Z.leb_spec N i); split; lia. }
      rewrite (slice_forward values x y step (forward (or_default a N 0) (or_default b N N) step)); [reflexivity|exact Hs|apply Hx|rewrite L; apply Hy|].
      intros p Hp. rewrite L in Hp. unfold forward. rewrite !andb_true_iff, Z.leb_le, Z.ltb_lt, Z.eqb_eq. destruct Hx as [Hx0 [->|Hx]]; [|split; [lia|intros [? _]; lia]]. destruct Hy as [_ Hy]. specialize (Hy p Hp). tauto.
    - destruct (Z.eqb_spec step 0); [lia|].
      set (x := match a with Some i => adjust N step i | None => N - 1 end). set (y := match b with Some i => adjust N step i | None => -1 end).
      assert (E1 : match bound_of a with BNone => Ok (if step <? 0 then N - 1 else 0) | _ => z <- unpack (bound_of a) 0 ;; Ok (adjust N step z) end = Ok x) by (unfold x; destruct a; cbn; [reflexivity|]; destruct (Z.ltb_spec step 0); [reflexivity|lia]).
      assert (E2 : match bound_of b with BNone => Ok (if step <? 0 then -1 else N) | _ => z <- unpack (bound_of b) 0 ;; Ok (adjust N step z) end = Ok y) by (unfold y; destruct b; cbn; [reflexivity|]; destruct (Z.ltb_spec step 0); [reflexivity|lia]).
      rewrite E1, E2. cbn [bind].
      assert (Hx : x < N /\ (x = Z.min (N - 1) (or_default a N (N - 1)) \/ x < 0 /\ or_default a N (N - 1) < 0)).
      { unfold x, or_default, from_end, adjust. destruct a as [i|]; [|lia]. destruct (Z.ltb_spec step 0); [|lia]. destruct (Z.ltb_spec i 0); [destruct (Z.ltb_spec (i + N) 0); lia|]. destruct (Z.leb_spec N i); lia. }
      assert (Hy : -1 <= y /\ forall p, 0 <= p < N -> (y < p <-> or_default b N (-1) < p)).
      { unfold y, or_default, from_end, adjust. destruct b as [i|]; [|split; lia]. destruct (Z.ltb_spec step 0); [|lia]. destruct (Z.ltb_spec i 0); [destruct (Z.ltb_spec (i + N) 0); split; lia|]. destruct (Z.leb_spec N i); split; lia. }
      rewrite (slice_backward values x y step (backward N (or_default a N (N - 1)) (or_default b N (-1)) step)); [reflexivity|exact Hs|rewrite L; apply Hx|apply Hy|].
      intros p Hp. rewrite L in Hp. unfold backward. rewrite !andb_true_iff, Z.leb_le, Z.ltb_lt, Z.eqb_eq. destruct Hx as [Hx0 [->|Hx]]; [|split; [lia|intros [? _]; lia]]. destruct Hy as [_ Hy]. specialize (Hy p Hp). tauto.
  Qed.
End Getitem.

(** ** Consequences *)
Lemma positions_shift {X} (sel : Z -> bool) (l : list X) : forall s, map snd (filter (fun ix => sel (Z.of_nat (fst ix))) (combine (seq (S s) (length l)) l)) = map snd (filter (fun ix => sel (Z.of_nat (fst ix) + 1)) (combine (seq s (length l)) l)).
Proof.
  induction l as [|x l IH]; intros s; [reflexivity|]. cbn [length seq combine filter fst]. replace (Z.of_nat (S s)) with (Z.of_nat s + 1) by lia. destruct (sel (Z.of_nat s + 1)); cbn [map snd]; now rewrite IH.
Qed.
Lemma at_cons {X} sel (x : X) l : at_positions sel (x :: l) = (if sel 0 then [x] else []) ++ at_positions (fun p => sel (p + 1)) l.
Proof.
  unfold at_positions. cbn [length seq combine filter fst Z.of_nat]. rewrite <- positions_shift. destruct (sel 0); reflexivity.
Qed.
Lemma at_ext {X} (f g : Z -> bool) : forall (l : list X), (forall p, 0 <= p < Z.of_nat (length l) -> f p = g p) -> at_positions f l = at_positions g l.
Proof.
  intros l. revert f g. induction l as [|x l IH]; intros f g H; [reflexivity|]. rewrite !at_cons. rewrite (H 0) by (cbn [length]; lia). f_equal. apply IH. intros p Hp. apply H. cbn [length]. lia.
Qed.
Lemma at_all {X} f : forall (l : list X), (forall p, 0 <= p < Z.of_nat (length l) -> f p = true) -> at_positions f l = l.
Proof. intros l. revert f. induction l as [|x l IH]; intros f H; [reflexivity|]. rewrite at_cons, H by (cbn [length]; lia). cbn. f_equal. apply IH. intros p Hp. apply H. cbn [length]. lia. Qed.
Lemma at_none {X} f : forall (l : list X), (forall p, 0 <= p < Z.of_nat (length l) -> f p = false) -> at_positions f l = [].
Proof. intros l. revert f. induction l as [|x l IH]; intros f H; [reflexivity|]. rewrite at_cons, H by (cbn [length]; lia). cbn. apply IH. intros p Hp. apply H. cbn [length]. lia. Qed.
Lemma at_between {X} : forall (l : list X) lo hi, 0 <= lo <= hi -> at_positions (fun p => (lo <=? p) && (p <? hi)) l = firstn (Z.to_nat hi - Z.to_nat lo) (skipn (Z.to_nat lo) l).
Proof.
  induction l as [|x l IH]; intros lo hi H.
  - rewrite skipn_nil, firstn_nil. reflexivity.
  - rewrite at_cons. destruct (Z.eq_dec lo 0) as [->|Hlo].
    + cbn [Z.to_nat skipn]. rewrite Nat.sub_0_r. destruct (Z.eq_dec hi 0) as [->|Hhi].
      * cbn. apply at_none. intros p Hp. destruct (Z.ltb_spec (p + 1) 0); [lia|]. apply andb_false_r.
      * destruct (Z.ltb_spec 0 hi); [|lia]. cbn [Z.leb Z.compare andb app]. replace (Z.to_nat hi) with (S (Z.to_nat (hi - 1))) by lia. cbn [firstn]. f_equal. specialize (IH 0 (hi - 1) ltac:(lia)). cbn [Z.to_nat skipn] in IH. rewrite Nat.sub_0_r in IH. rewrite <- IH. apply at_ext. intros p Hp.
        destruct (Z.leb_spec 0 (p + 1)), (Z.leb_spec 0 p), (Z.ltb_spec (p + 1) hi), (Z.ltb_spec p (hi - 1)); try lia; reflexivity.
    + destruct (Z.leb_spec lo 0); [lia|]. cbn [andb app]. replace (Z.to_nat lo) with (S (Z.to_nat (lo - 1))) by lia. cbn [skipn]. replace (Z.to_nat hi - S (Z.to_nat (lo - 1)))%nat with (Z.to_nat (hi - 1) - Z.to_nat (lo - 1))%nat by lia.
      rewrite <- (IH (lo - 1) (hi - 1)) by lia. apply at_ext. intros p Hp. destruct (Z.leb_spec lo (p + 1)), (Z.leb_spec (lo - 1) p), (Z.ltb_spec (p + 1) hi), (Z.ltb_spec p (hi - 1)); try lia; reflexivity.
Qed.
Lemma forward_one lo hi p : forward lo hi 1 p = ((Z.max 0 lo <=? p) && (p <? hi))%bool.
Proof. unfold forward. rewrite Z.mod_1_r. cbn [Z.eqb]. apply andb_true_r. Qed.

Section Consequences.
  Context {T A : Type}.
  Variable n : node T A.
  Notation values := (map snd (nch n)).
  Notation N := (Z.of_nat (length (nch n))).
  Notation slice_of a b c := (getitem n (ISlice a b c)).
  Let L : length values = length (nch n) := map_length _ _.

  (** [node[a:b]], 0 <= a <= b; [node[:]]; [node[::-1]]. *)
  Theorem C90_range a b : 0 <= a <= b -> slice_of (BInt a) (BInt b) BNone = Ok (Many (firstn (Z.to_nat (b - a)) (skipn (Z.to_nat a) values))).
  Proof.
    intros H. destruct (C90_slice n (Some a) (Some b) None) as (_ & P & _). cbn [bound_of or_default] in P. rewrite (P ltac:(lia)). clear P. f_equal. f_equal. unfold from_end. destruct (Z.ltb_spec a 0); [lia|]. destruct (Z.ltb_spec b 0); [lia|].
    rewrite (at_ext _ (fun p => (a <=? p) && (p <? b))) by (intros p _; rewrite forward_one, Z.max_r by lia; reflexivity). rewrite at_between by exact H. f_equal. lia.
  Qed.
  Theorem C90_all : slice_of BNone BNone BNone = Ok (Many values) /\ slice_of BNone BNone (BInt (-1)) = Ok (Many (rev values)).
  Proof.
    split.
    - destruct (C90_slice n None None None) as (_ & P & _). cbn [bound_of or_default] in P. rewrite (P ltac:(lia)). f_equal. f_equal. apply at_all. intros p Hp. rewrite L in Hp. rewrite forward_one. apply andb_true_iff. rewrite Z.leb_le, Z.ltb_lt. lia.
    - destruct (C90_slice n None None (Some (-1))) as (_ & _ & P). cbn [bound_of or_default] in P. rewrite (P ltac:(lia)). f_equal. f_equal. f_equal. apply at_all. intros p Hp. rewrite L in Hp. unfold backward. change (- -1) with 1. rewrite Z.mod_1_r, !andb_true_iff, Z.leb_le, Z.ltb_lt. split; [lia|reflexivity].
  Qed.
  (** [node[:i]] and [node[i:]] make up the children, for every integer [i]. *)
  Theorem C90_parts i : exists x y, slice_of BNone (BInt i) BNone = Ok (Many x) /\ slice_of (BInt i) BNone BNone = Ok (Many y) /\ x ++ y = values.
  Proof.
    destruct (C90_slice n None (Some i) None) as (_ & P & _). destruct (C90_slice n (Some i) None None) as (_ & Q & _). cbn [bound_of or_default] in P, Q.
    eexists _, _. split; [exact (P ltac:(lia))|]. split; [exact (Q ltac:(lia))|]. set (j := from_end N i).
    rewrite (at_ext (forward 0 j 1) (fun p => (0 <=? p) && (p <? Z.max 0 (Z.min N j)))).
    2:{ intros p Hp. rewrite L in Hp. rewrite forward_one. destruct (Z.ltb_spec p j), (Z.ltb_spec p (Z.max 0 (Z.min N j))); try lia; reflexivity. }
    rewrite (at_ext (forward j N 1) (fun p => (Z.max 0 (Z.min N j) <=? p) && (p <? N))).
    2:{ intros p Hp. rewrite L in Hp. rewrite forward_one. destruct (Z.leb_spec (Z.max 0 j) p), (Z.leb_spec (Z.max 0 (Z.min N j)) p); try lia; reflexivity. }
    rewrite !at_between by lia. set (k := Z.to_nat (Z.max 0 (Z.min N j))). cbn [Z.to_nat skipn]. rewrite Nat.sub_0_r.
    rewrite (firstn_all2 (skipn k values)) by (rewrite skipn_length, L; lia). apply firstn_skipn.
  Qed.
  (** By position or by key: [node[i]] is [node[node.keys()[i]]]. *)
  Theorem C90_keys i k : wf n -> slashfree n -> nth_error (nkeys n) i = Some k -> exists c, getitem n (IInt (Z.of_nat i)) = Ok (One c) /\ getitem n (IStr k) = Ok (One c).
  Proof.
    intros Hw Hs Hk. unfold nkeys, dkeys in Hk. rewrite nth_error_map in Hk. destruct (nth_error (nch n) i) as [[k' c]|] eqn:E; [|discriminate]. cbn in Hk. injection Hk as ->. exists c.
    assert (Hi : (i < length (nch n))%nat) by (apply nth_error_Some; congruence). split.
    - destruct (C90_int n (Z.of_nat i)) as (P & _). destruct P as (c' & P1 & P2); [lia|]. rewrite Nat2Z.id, nth_error_map, E in P1. cbn in P1. injection P1 as <-. exact P2.
    - cbn [getitem]. apply nth_error_In in E. destruct n as [t v ch]. cbn [nch] in *. inversion Hw as [? ? ? Hnd _]; subst. inversion Hs as [? ? ? Hsl _]; subst. rewrite Forall_forall in Hsl. specialize (Hsl _ E). cbn [fst] in Hsl.
      rewrite get_child_walk, (split_all_single k Hsl). cbn [walk nch]. rewrite (In_dget k c ch Hnd E). reflexivity.
  Qed.
  (** A key that is neither a string nor an integer nor a slice, or a slice with a bound that
      is not an integer (and a step that is not 0), raises TypeError. *)
  Theorem C90_types : getitem n IOther = Err TypeErr /\
    (forall a b, slice_of a b BOther = Err TypeErr) /\ (forall b c, c <> BInt 0 -> slice_of BOther b c = Err TypeErr) /\ (forall a c, c <> BInt 0 -> slice_of a BOther c = Err TypeErr).
  Proof.
    split; [reflexivity|]. split; [reflexivity|]. cbn [getitem]. unfold list_slice. split; intros x c Hc; destruct c as [|z|]; cbn [unpack bind]; try reflexivity.
    - destruct (Z.eqb_spec z 0); [congruence|reflexivity].
    - destruct x as [| |]; reflexivity.
    - destruct (Z.eqb_spec z 0); [congruence|]. destruct x as [| |]; reflexivity.
  Qed.
  (** A child added with a plain key becomes the last one; the positions of the others stay. *)
  Theorem C90_added key child n' : components key [key] -> add_child n key child = (n', Ok tt) ->
    getitem n' (IInt (-1)) = Ok (One child) /\ (forall i, 0 <= i < N -> getitem n' (IInt i) = getitem n (IInt i)).
  Proof.
    intros Hk E. destruct (C02_add_child_effect n key [key] child n' Hk E) as (_ & _ & (par & par' & W1 & W2 & _ & _ & Hch) & _). cbn in W1, W2. injection W1 as <-. injection W2 as <-. cbn [last] in Hch. split.
    - destruct (C90_int n' (-1)) as (_ & P & _). destruct P as (c & P1 & P2); [rewrite Hch, app_length; cbn; lia|]. rewrite Hch, map_app, rev_app_distr in P1. cbn in P1. injection P1 as <-. exact P2.
    - intros i Hi. destruct (C90_int n i) as (P & _). destruct (P Hi) as (c & P1 & P2). destruct (C90_int n' i) as (Q & _). destruct Q as (c' & Q1 & Q2); [rewrite Hch, app_length; lia|].
      rewrite Hch, map_app, nth_error_app1 in Q1 by (rewrite L; lia). rewrite P1 in Q1. injection Q1 as <-. now rewrite P2, Q2.
  Qed.
End Consequences.

(** A node with children a, b, c, d. *)
Definition four : node nat nat := Node 0%nat 0%nat [("a", Node 1%nat 1%nat []); ("b", Node 1%nat 2%nat []); ("c", Node 1%nat 3%nat []); ("d", Node 1%nat 4%nat [])]%string.
Example C90_case :
  getitem four (IInt (-1)) = Ok (One (Node 1%nat 4%nat [])) /\ getitem four (IInt (-5)) = Err IndexErr /\ getitem four (IInt 4) = Err IndexErr /\
  getitem four (ISlice (BInt 3) (BInt (-10)) (BInt (-2))) = Ok (Many [Node 1%nat 4%nat []; Node 1%nat 2%nat []]) /\
  getitem four (ISlice (BInt (-3)) BNone (BInt 2)) = Ok (Many [Node 1%nat 2%nat []; Node 1%nat 4%nat []]) /\
  getitem four (ISlice BNone BNone (BInt 0)) = Err ValueErr /\ wf four /\ slashfree four /\ components "e" ["e"%string] /\ (exists n', add_child four "e" (Node 1%nat 5%nat []) = (n', Ok tt)).
Proof.
  repeat (apply conj; [vm_compute; reflexivity|]). split; [unfold four; repeat (constructor; cbn; try tauto; try (intuition discriminate))|]. split; [unfold four; repeat (constructor; cbn; try reflexivity)|].
  split; [repeat split; try discriminate; repeat constructor|]. eexists. reflexivity.
Qed.

Print Assumptions C90_int.
Print Assumptions C90_slice.
Print Assumptions C90_range.
Print Assumptions C90_all.
Print Assumptions C90_parts.
Print Assumptions C90_keys.
Print Assumptions C90_types.
Print Assumptions C90_added.
