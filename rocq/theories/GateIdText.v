(** * Gate ids: the texts describing gates, and the proofs for C51. *)
From Coq Require Import String.
From Coq Require Import Ascii ZArith NArith Lia List Bool Permutation.
From Verif Require Import Zp Circuit Goldilocks Types Gates GateIds GateIdProofs.
Import ListNotations.
Open Scope Z_scope.

(** ** The identifiers plonky2 prints, as a relation between gates and texts *)
Notation str := list_ascii_of_string.
(** [ds] is a decimal numeral for [z] *)
Definition numeral (ds : list ascii) (z : Z) : Prop :=
  ds <> [] /\ (forall c, In c ds -> (48 <= N_of_ascii c <= 57)%N) /\
  z = fold_left (fun acc c => 10 * acc + (Z.of_N (N_of_ascii c) - 48)) ds 0.
(** a Go int or uint64, of which [n] is the value *)
Definition int_text (ds : list ascii) (n : nat) : Prop := numeral ds (Z.of_nat n) /\ Z.of_nat n < 2 ^ 63.
Definition uint64_text (ds : list ascii) (n : nat) : Prop := numeral ds (Z.of_nat n) /\ Z.of_nat n < 2 ^ 64.
(** comma separated uint64 numerals with optional blanks; plonky2 prints non-canonical
    representatives for some weights *)
Inductive weights_text : list Z -> list ascii -> Prop :=
| weights_one a ds b z : blanks a -> blanks b -> numeral ds z -> z < 2 ^ 64 ->
    weights_text [z mod (2 ^ 64 - 2 ^ 32 + 1)] (a ++ ds ++ b)
| weights_more a ds b z ws t : blanks a -> blanks b -> numeral ds z -> z < 2 ^ 64 -> weights_text ws t ->
    weights_text (z mod (2 ^ 64 - 2 ^ 32 + 1) :: ws) ((a ++ ds ++ b) ++ comma :: t).
Inductive gate_text : Gate -> list ascii -> Prop :=
| t_arithmetic n ds : int_text ds n ->
    gate_text (ArithmeticGate n) (str "ArithmeticGate { num_ops: " ++ ds ++ str " }")
| t_arithmetic_extension n ds : int_text ds n ->
    gate_text (ArithmeticExtensionGate n) (str "ArithmeticExtensionGate { num_ops: " ++ ds ++ str " }")
| t_base_sum n b ds bs : int_text ds n -> int_text bs b ->
    gate_text (BaseSumGate n b) (str "BaseSumGate { num_limbs: " ++ ds ++ str " } + Base: " ++ bs)
| t_constant n ds : int_text ds n ->
    gate_text (ConstantGate n) (str "ConstantGate { num_consts: " ++ ds ++ str " }")
| t_coset n d ws ns ds t : uint64_text ns n -> uint64_text ds d -> (2 <= d)%nat -> weights_text ws t ->
    gate_text (CosetInterpolationGate n d ws)
      (str "CosetInterpolationGate { subgroup_bits: " ++ ns ++ str ", degree: " ++ ds ++ str ", barycentric_weights: [" ++ t ++
       str "], _phantom: PhantomData<plonky2_field::goldilocks_field::GoldilocksField> }<D=2>")
| t_exponentiation n ds bs : int_text ds n -> numeral bs 2 ->
    gate_text (ExponentiationGate n)
      (str "ExponentiationGate { num_power_bits: " ++ ds ++
       str ", _phantom: PhantomData<plonky2_field::goldilocks_field::GoldilocksField> }<D=" ++ bs ++ str ">")
| t_mul_extension n ds : int_text ds n ->
    gate_text (MultiplicationExtensionGate n) (str "MulExtensionGate { num_ops: " ++ ds ++ str " }")
| t_noop : gate_text NoopGate (str "NoopGate")
| t_poseidon : gate_text PoseidonGate (str "PoseidonGate")
| t_poseidon_full : gate_text PoseidonGate (str "PoseidonGate(PhantomData<plonky2_field::goldilocks_field::GoldilocksField>)<WIDTH=12>")
| t_poseidon_mds : gate_text PoseidonMdsGate (str "PoseidonMdsGate")
| t_poseidon_mds_full : gate_text PoseidonMdsGate (str "PoseidonMdsGate(PhantomData<plonky2_field::goldilocks_field::GoldilocksField>)<WIDTH=12>")
| t_public_input : gate_text PublicInputGate (str "PublicInputGate")
| t_random_access n c x ns cs xs bs : uint64_text ns n -> uint64_text cs c -> uint64_text xs x -> numeral bs 2 ->
    gate_text (RandomAccessGate n c x)
      (str "RandomAccessGate { bits: " ++ ns ++ str ", num_copies: " ++ cs ++ str ", num_extra_constants: " ++ xs ++
       str ", _phantom: PhantomData<plonky2_field::goldilocks_field::GoldilocksField> }<D=" ++ bs ++ str ">")
| t_reducing_extension n ds : int_text ds n ->
    gate_text (ReducingExtensionGate n) (str "ReducingExtensionGate { num_coeffs: " ++ ds ++ str " }")
| t_reducing n ds : int_text ds n ->
    gate_text (ReducingGate n) (str "ReducingGate { num_coeffs: " ++ ds ++ str " }").

(** ** Correspondence with the model's parsers *)
Lemma digit_range c : is_digit c = true <-> (48 <= N_of_ascii c <= 57)%N.
Proof.
  unfold is_digit. split.
  - intros H. apply andb_prop in H. destruct H as [H1 H2]. apply N.leb_le in H1, H2. now split.
  - intros [H1 H2]. apply andb_true_intro. split; now apply N.leb_le.
Qed.
Lemma numeral_iff ds z : numeral ds z <-> ds <> [] /\ forallb is_digit ds = true /\ z = dec ds.
Proof.
  unfold numeral. split; intros (H1 & H2 & H3); (split; [exact H1|split; [|exact H3]]).
  - apply forallb_forall. intros c Hc. apply digit_range. now apply H2.
  - intros c Hc. apply digit_range. rewrite forallb_forall in H2. now apply H2.
Qed.
Lemma dec_nonneg ds : forallb is_digit ds = true -> 0 <= dec ds.
Proof.
  unfold dec. assert (G : forall s acc, 0 <= acc -> forallb is_digit s = true -> 0 <= fold_left (fun acc c => 10 * acc + digit_val c) s acc).
  { induction s as [|c s IH]; intros acc Ha H; [exact Ha|]. cbn [forallb] in H. apply andb_prop in H. destruct H as [H1 H2].
    cbn [fold_left]. apply IH; [|exact H2]. apply digit_range in H1. unfold digit_val. lia. }
  apply G. lia.
Qed.
Lemma int_text_iff ds n : int_text ds n <-> exists z, Atoi ds = Some z /\ n = Z.to_nat z.
Proof.
  unfold int_text. rewrite numeral_iff. split.
  - intros ((H1 & H2 & H3) & H4). exists (dec ds). split; [|lia]. apply Atoi_ok; [exact H1|exact H2|lia].
  - intros (z & H & ->). apply Atoi_inv in H. destruct H as (H1 & H2 & -> & H4). pose proof (dec_nonneg ds H2). rewrite Z2Nat.id by lia.
    split; [split; [exact H1|split; [exact H2|reflexivity]]|exact H4].
Qed.
Lemma uint64_text_iff ds n : uint64_text ds n <-> exists z, ParseUint ds = Some z /\ n = Z.to_nat z.
Proof.
  unfold uint64_text. rewrite numeral_iff. split.
  - intros ((H1 & H2 & H3) & H4). exists (dec ds). split; [|lia]. apply ParseUint_ok; [exact H1|exact H2|lia].
  - intros (z & H & ->). apply ParseUint_inv in H. destruct H as (H1 & H2 & -> & H4). pose proof (dec_nonneg ds H2). rewrite Z2Nat.id by lia.
    split; [split; [exact H1|split; [exact H2|reflexivity]]|exact H4].
Qed.
Definition read_weight (w : list ascii) : circ Z :=
  bind (of_opt "invalid barycentricWeights in CosetInterpolationGate" (ParseUint (TrimSpace w))) (fun z => Ret (z mod MODULUS)).
Lemma part_nocomma a ds b z : blanks a -> blanks b -> numeral ds z -> ~ In comma (a ++ ds ++ b).
Proof.
  intros Ha Hb Hn X. apply numeral_iff in Hn. destruct Hn as (_ & Hd & _). apply in_app_or in X. destruct X as [X|X]; [exact (blanks_nocomma _ Ha X)|].
  apply in_app_or in X. destruct X as [X|X]; [|exact (blanks_nocomma _ Hb X)].
  rewrite forallb_forall in Hd. exact (digit_not_comma _ (Hd _ X) eq_refl).
Qed.
Lemma read_weight_ok a ds b z : blanks a -> blanks b -> numeral ds z -> z < 2 ^ 64 ->
  read_weight (a ++ ds ++ b) = Ret (z mod (2 ^ 64 - 2 ^ 32 + 1)).
Proof.
  intros Ha Hb Hn Hz. apply numeral_iff in Hn. destruct Hn as (Hne & Hd & ->). unfold read_weight.
  rewrite Trim_ok by assumption. rewrite ParseUint_ok by assumption. reflexivity.
Qed.
Lemma weights_ok ws t : weights_text ws t -> mapM read_weight (split_comma t) = Ret ws.
Proof.
  induction 1 as [a ds b z Ha Hb Hn Hz|a ds b z ws t Ha Hb Hn Hz _ IH].
  - rewrite split_nocomma by (eapply part_nocomma; eassumption). cbn [mapM]. rewrite (read_weight_ok a ds b z) by assumption. reflexivity.
  - rewrite split_cons by (eapply part_nocomma; eassumption). cbn [mapM]. rewrite (read_weight_ok a ds b z) by assumption. cbn [bind]. rewrite IH. reflexivity.
Qed.
Lemma weights_var ws t : weights_text ws t -> t <> [] /\ forallb is_list_char t = true.
Proof.
  assert (P : forall a ds b z, blanks a -> blanks b -> numeral ds z -> (a ++ ds ++ b) <> [] /\ forallb is_list_char (a ++ ds ++ b) = true).
  { intros a ds b z Ha Hb Hn. apply numeral_iff in Hn. destruct Hn as (Hne & Hd & _). split.
    - intros E. apply app_eq_nil in E. destruct E as [_ E]. apply app_eq_nil in E. now apply Hne.
    - rewrite !forallb_app, (blanks_list a Ha), (blanks_list b Hb), (digits_list ds Hd). reflexivity. }
  induction 1 as [a ds b z Ha Hb Hn Hz|a ds b z ws t Ha Hb Hn Hz _ [IH1 IH2]]; [now apply (P a ds b z)|].
  destruct (P a ds b z Ha Hb Hn) as [P1 P2]. split; [intros E; apply app_eq_nil in E; now apply P1|].
  rewrite forallb_app, P2. cbn [forallb andb]. rewrite IH2. reflexivity.
Qed.
Lemma read_weight_inv w v : read_weight w = Ret v ->
  exists a ds b z, w = a ++ ds ++ b /\ blanks a /\ blanks b /\ numeral ds z /\ z < 2 ^ 64 /\ v = z mod (2 ^ 64 - 2 ^ 32 + 1).
Proof.
  unfold read_weight. intros H. apply bind_ret in H. destruct H as (z & H1 & H2). apply of_opt_ret in H1. injection H2 as <-.
  apply ParseUint_inv in H1. destruct H1 as (H1 & H3 & -> & H4). destruct (Trim_inv w) as (a & b & Ha & Hb & E).
  exists a, (TrimSpace w), b, (dec (TrimSpace w)). split; [exact E|]. split; [exact Ha|]. split; [exact Hb|].
  split; [apply numeral_iff; split; [exact H1|split; [exact H3|reflexivity]]|]. split; [exact H4|reflexivity].
Qed.
Lemma weights_inv : forall t ws, mapM read_weight (split_comma t) = Ret ws -> weights_text ws t.
Proof.
  intros t. remember (length t) as n eqn:En. assert (Hn : (length t <= n)%nat) by lia. clear En. revert t Hn.
  induction n as [|n IH]; intros t Hn ws H.
  - destruct t; [|cbn in Hn; lia]. cbn in H. discriminate H.
  - destruct (split_cases t) as [[_ E]|(w & t' & -> & _ & E)]; rewrite E in H; cbn [mapM] in H.
    + apply bind_ret in H. destruct H as (v & H1 & H2). cbn [bind] in H2. injection H2 as <-.
      destruct (read_weight_inv _ _ H1) as (a & ds & b & z & -> & Ha & Hb & Hnu & Hz & ->). now apply weights_one.
    + apply bind_ret in H. destruct H as (v & H1 & H2). apply bind_ret in H2. destruct H2 as (vs & H2 & H3). injection H3 as <-.
      destruct (read_weight_inv _ _ H1) as (a & ds & b & z & -> & Ha & Hb & Hnu & Hz & ->).
      apply weights_more; try assumption. apply IH; [|exact H2]. rewrite app_length in Hn. cbn [length] in Hn. lia.
Qed.

(** ** Every text is parsed to its gate, whatever the order of the handlers *)
Lemma complete_one order h l segs m id : Permutation order gateRegexHandlers -> In h gateRegexHandlers ->
  str id = flatten l segs -> Forall (fun vl => var_ok (fst vl)) segs -> regex_at (fst h) (flatten l segs) = Some m ->
  (forall h', In h' gateRegexHandlers -> absent (fst h') (lits l segs) = true \/ h' = h) ->
  GateInstanceFromId order id = snd h m.
Proof.
  intros HP Hin E Hs Hm Hu. apply unique_handler.
  - exact (Permutation_in _ (Permutation_sym HP) Hin).
  - unfold chars. rewrite E. now apply find_here.
  - intros h' Hh'. apply (Permutation_in _ HP) in Hh'. destruct (Hu h' Hh') as [A| ->]; [right|now left].
    unfold chars. rewrite E. now apply absent_find.
Qed.
Ltac all_handlers := let h := fresh in let H := fresh in intros h H;
  repeat (destruct H as [<-|H]; [first [left; vm_compute; reflexivity | right; reflexivity]|]); destruct H.
Ltac in_handlers := cbv [gateRegexHandlers In]; repeat (first [left; reflexivity | right]).

Lemma int_var ds n : int_text ds n -> var_ok ds.
Proof. intros [H _]. apply numeral_iff in H. destruct H as (H1 & H2 & _). split; [exact H1|now apply digits_list]. Qed.
Lemma uint_var ds n : uint64_text ds n -> var_ok ds.
Proof. intros [H _]. apply numeral_iff in H. destruct H as (H1 & H2 & _). split; [exact H1|now apply digits_list]. Qed.
Lemma numeral_var ds z : numeral ds z -> var_ok ds.
Proof. intros H. apply numeral_iff in H. destruct H as (H1 & H2 & _). split; [exact H1|now apply digits_list]. Qed.
Lemma at_digits name r ds z s m : numeral ds z -> stops is_digit s -> regex_at r s = Some m ->
  regex_at (Cap name is_digit :: r) (ds ++ s) = Some ((name, ds) :: m).
Proof. intros H. apply numeral_iff in H. destruct H as (H1 & H2 & _). now apply at_cap. Qed.
Lemma number_int msg ds n : int_text ds n -> number Atoi msg ds = Ret n.
Proof. intros H. apply int_text_iff in H. destruct H as (z & H & ->). unfold number. rewrite H. reflexivity. Qed.
Lemma number_uint msg ds n : uint64_text ds n -> number ParseUint msg ds = Ret n.
Proof. intros H. apply uint64_text_iff in H. destruct H as (z & H & ->). unfold number. rewrite H. reflexivity. Qed.
Lemma number_two msg ds : numeral ds 2 -> number Atoi msg ds = Ret 2%nat.
Proof. intros H. apply (number_int msg ds 2). split; [exact H|reflexivity]. Qed.

Lemma one_field order id name (mk : nat -> Gate) a ds n :
  let h := ([Lit a; Cap name is_digit; Lit " }"], deserialize1 name mk) in
  Permutation order gateRegexHandlers -> In h gateRegexHandlers -> int_text ds n -> str id = chars a ++ ds ++ chars " }" ->
  (forall h', In h' gateRegexHandlers -> absent (fst h') [chars a; chars " }"] = true \/ h' = h) ->
  GateInstanceFromId order id = Ret (mk n).
Proof.
  intros h HP Hin Hds E Hu.
  rewrite (complete_one order h (chars a) [(ds, chars " }")] [(name, ds)] id HP Hin).
  - unfold h, deserialize1, field. cbn [snd lookup]. rewrite String.eqb_refl. cbn [of_opt bind]. rewrite (number_int _ _ _ Hds). reflexivity.
  - exact E.
  - constructor; [exact (int_var _ _ Hds)|constructor].
  - unfold h. cbn [fst flatten]. rewrite at_lit. apply (at_digits _ _ _ _ _ _ (proj1 Hds)); [reflexivity|]. now rewrite <- (app_nil_r (chars " }")), at_lit.
  - exact Hu.
Qed.
Lemma no_field order id h l g : Permutation order gateRegexHandlers -> In h gateRegexHandlers -> str id = l ->
  (exists m, regex_at (fst h) l = Some m /\ snd h m = Ret g) ->
  (forall h', In h' gateRegexHandlers -> absent (fst h') [l] = true \/ h' = h) -> GateInstanceFromId order id = Ret g.
Proof.
  intros HP Hin E (m & Hm & Hr) Hu. rewrite (complete_one order h l [] m id HP Hin E (Forall_nil _) Hm Hu). exact Hr.
Qed.

Lemma complete g id order : gate_text g (str id) -> Permutation order gateRegexHandlers -> GateInstanceFromId order id = Ret g.
Proof.
  intros H HP. remember (str id) as s eqn:E. symmetry in E. destruct H.
  - apply (one_field order id "numOps" ArithmeticGate "ArithmeticGate { num_ops: " ds n HP); [in_handlers|exact H|exact E|all_handlers].
  - apply (one_field order id "numOps" ArithmeticExtensionGate "ArithmeticExtensionGate { num_ops: " ds n HP); [in_handlers|exact H|exact E|all_handlers].
  - rewrite (complete_one order (baseSumGateRegex, deserializeBaseSumGate) (chars "BaseSumGate { num_limbs: ")
      [(ds, chars " } + Base: "); (bs, [])] [("numLimbs"%string, ds); ("base"%string, bs)] id HP).
    + cbn [snd]. unfold deserializeBaseSumGate, field. cbn [lookup String.eqb Ascii.eqb Bool.eqb of_opt bind].
      rewrite (number_int _ _ _ H). cbn [bind]. rewrite (number_int _ _ _ H0). reflexivity.
    + in_handlers.
    + cbn [flatten]. rewrite app_nil_r. exact E.
    + constructor; [exact (int_var _ _ H)|]. constructor; [exact (int_var _ _ H0)|constructor].
    + cbn [fst flatten]. unfold baseSumGateRegex. rewrite at_lit. apply (at_digits _ _ _ _ _ _ (proj1 H)); [reflexivity|].
      rewrite at_lit. apply (at_digits _ _ _ _ _ _ (proj1 H0)); [exact I|reflexivity].
    + all_handlers.
  - apply (one_field order id "numConsts" ConstantGate "ConstantGate { num_consts: " ds n HP); [in_handlers|exact H|exact E|all_handlers].
  - destruct (weights_var _ _ H2) as [W1 W2].
    rewrite (complete_one order (cosetInterpolationGateRegex, deserializeCosetInterpolationGate) (chars "CosetInterpolationGate { subgroup_bits: ")
      [(ns, chars ", degree: "); (ds, chars ", barycentric_weights: ["); (t, chars ("]" ++ phantom ++ "2>"))]
      [("subgroupBits"%string, ns); ("degree"%string, ds); ("barycentricWeights"%string, t)] id HP).
    + cbn [snd]. unfold deserializeCosetInterpolationGate, field. cbn [lookup String.eqb Ascii.eqb Bool.eqb of_opt bind].
      rewrite (number_uint _ _ _ H). cbn [bind]. rewrite (number_uint _ _ _ H0). cbn [bind].
      rewrite (proj2 (Nat.ltb_ge d 2)) by assumption. cbn [bind]. change (bind (mapM read_weight (split_comma t)) (fun ws => Ret (CosetInterpolationGate n d ws)) = Ret (CosetInterpolationGate n d ws)).
      rewrite (weights_ok _ _ H2). reflexivity.
    + in_handlers.
    + exact E.
    + constructor; [exact (uint_var _ _ H)|]. constructor; [exact (uint_var _ _ H0)|]. constructor; [split; assumption|constructor].
    + cbn [fst flatten]. unfold cosetInterpolationGateRegex. rewrite at_lit. apply (at_digits _ _ _ _ _ _ (proj1 H)); [reflexivity|].
      rewrite at_lit. apply (at_digits _ _ _ _ _ _ (proj1 H0)); [reflexivity|].
      rewrite at_lit. apply at_cap; [exact W1|exact W2|reflexivity|]. now rewrite <- (app_nil_r (chars ("]" ++ phantom ++ "2>"))), at_lit.
    + all_handlers.
  - rewrite (complete_one order (exponentiationGateRegex, deserializeExponentiationGate) (chars "ExponentiationGate { num_power_bits: ")
      [(ds, chars phantom); (bs, chars ">")] [("numPowerBits"%string, ds); ("base"%string, bs)] id HP).
    + cbn [snd]. unfold deserializeExponentiationGate, field. cbn [lookup String.eqb Ascii.eqb Bool.eqb of_opt bind].
      rewrite (number_int _ _ _ H). cbn [bind]. rewrite (number_two _ _ H0). reflexivity.
    + in_handlers.
    + exact E.
    + constructor; [exact (int_var _ _ H)|]. constructor; [exact (numeral_var _ _ H0)|constructor].
    + cbn [fst flatten]. unfold exponentiationGateRegex. rewrite at_lit. apply (at_digits _ _ _ _ _ _ (proj1 H)); [reflexivity|].
      rewrite at_lit. apply (at_digits _ _ _ _ _ _ H0); [reflexivity|reflexivity].
    + all_handlers.
  - apply (one_field order id "numOps" MultiplicationExtensionGate "MulExtensionGate { num_ops: " ds n HP); [in_handlers|exact H|exact E|all_handlers].
  - refine (no_field order id (noopGateRegex, fun _ => Ret NoopGate) _ _ HP _ E _ _); [in_handlers|eexists; split; [vm_compute; reflexivity|reflexivity]|all_handlers].
  - refine (no_field order id (poseidonGateRegex, fun _ => Ret PoseidonGate) _ _ HP _ E _ _); [in_handlers|eexists; split; [vm_compute; reflexivity|reflexivity]|all_handlers].
  - refine (no_field order id (poseidonGateRegex, fun _ => Ret PoseidonGate) _ _ HP _ E _ _); [in_handlers|eexists; split; [vm_compute; reflexivity|reflexivity]|all_handlers].
  - refine (no_field order id (poseidonMdsGateRegex, fun _ => Ret PoseidonMdsGate) _ _ HP _ E _ _); [in_handlers|eexists; split; [vm_compute; reflexivity|reflexivity]|all_handlers].
  - refine (no_field order id (poseidonMdsGateRegex, fun _ => Ret PoseidonMdsGate) _ _ HP _ E _ _); [in_handlers|eexists; split; [vm_compute; reflexivity|reflexivity]|all_handlers].
  - refine (no_field order id (publicInputGateRegex, fun _ => Ret PublicInputGate) _ _ HP _ E _ _); [in_handlers|eexists; split; [vm_compute; reflexivity|reflexivity]|all_handlers].
  - rewrite (complete_one order (randomAccessGateRegex, deserializeRandomAccessGate) (chars "RandomAccessGate { bits: ")
      [(ns, chars ", num_copies: "); (cs, chars ", num_extra_constants: "); (xs, chars phantom); (bs, chars ">")]
      [("bits"%string, ns); ("numCopies"%string, cs); ("numExtraConstants"%string, xs); ("base"%string, bs)] id HP).
    + cbn [snd]. unfold deserializeRandomAccessGate, field. cbn [lookup String.eqb Ascii.eqb Bool.eqb of_opt bind].
      rewrite (number_uint _ _ _ H). cbn [bind]. rewrite (number_uint _ _ _ H0). cbn [bind]. rewrite (number_uint _ _ _ H1). cbn [bind].
      rewrite (number_two _ _ H2). reflexivity.
    + in_handlers.
    + exact E.
    + constructor; [exact (uint_var _ _ H)|]. constructor; [exact (uint_var _ _ H0)|]. constructor; [exact (uint_var _ _ H1)|].
      constructor; [exact (numeral_var _ _ H2)|constructor].
    + cbn [fst flatten]. unfold randomAccessGateRegex. rewrite at_lit. apply (at_digits _ _ _ _ _ _ (proj1 H)); [reflexivity|].
      rewrite at_lit. apply (at_digits _ _ _ _ _ _ (proj1 H0)); [reflexivity|].
      rewrite at_lit. apply (at_digits _ _ _ _ _ _ (proj1 H1)); [reflexivity|].
      rewrite at_lit. apply (at_digits _ _ _ _ _ _ H2); [reflexivity|reflexivity].
    + all_handlers.
  - apply (one_field order id "numCoeffs" ReducingExtensionGate "ReducingExtensionGate { num_coeffs: " ds n HP); [in_handlers|exact H|exact E|all_handlers].
  - apply (one_field order id "numCoeffs" ReducingGate "ReducingGate { num_coeffs: " ds n HP); [in_handlers|exact H|exact E|all_handlers].
Qed.

(** ** Whatever is parsed contains a text of the result *)
Lemma occurs_here {A} (a k b : list A) : occurs k (a ++ k ++ b).
Proof. now exists a, b. Qed.
Lemma field_ret name msg ps v : field name msg ps = Ret v -> lookup name ps = Some v.
Proof. apply of_opt_ret. Qed.
Lemma sound_one name mk a s m g : find [Lit a; Cap name is_digit; Lit " }"] s = Some m -> deserialize1 name mk m = Ret g ->
  exists ds n, int_text ds n /\ g = mk n /\ occurs (chars a ++ ds ++ chars " }") s.
Proof.
  intros Hf Hd. apply find_inv in Hf. destruct Hf as (pre & s1 & -> & Hf). apply lit_inv in Hf. destruct Hf as (s2 & -> & Hf).
  apply cap_inv in Hf. destruct Hf as (ds & s3 & m' & -> & _ & _ & -> & Hf). apply lit_inv in Hf. destruct Hf as (s4 & -> & _).
  unfold deserialize1, field in Hd. cbn [lookup] in Hd. rewrite String.eqb_refl in Hd. cbn [of_opt bind] in Hd.
  apply bind_ret in Hd. destruct Hd as (n & Hn & Hg). injection Hg as <-. apply number_ret in Hn.
  exists ds, n. split; [now apply int_text_iff|]. split; [reflexivity|].
  exists pre, s4. now rewrite !app_assoc_reverse.
Qed.
Lemma sound id order g : incl order gateRegexHandlers -> GateInstanceFromId order id = Ret g -> exists t, gate_text g t /\ occurs t (str id).
Proof.
  intros HP H. apply some_handler in H. destruct H as (h & m & Hin & Hf & Hr). apply HP in Hin.
  unfold chars in Hf. set (s := str id) in *. clearbody s.
  repeat (destruct Hin as [<-|Hin]; [cbn [fst snd] in Hf, Hr|]); [..|destruct Hin].
  - destruct (sound_one _ _ _ _ _ _ Hf Hr) as (ds & n & Ht & -> & Ho). eexists. split; [|exact Ho]. now apply t_arithmetic.
  - destruct (sound_one _ _ _ _ _ _ Hf Hr) as (ds & n & Ht & -> & Ho). eexists. split; [|exact Ho]. now apply t_arithmetic_extension.
  - apply find_inv in Hf. destruct Hf as (pre & s1 & -> & Hf). apply lit_inv in Hf. destruct Hf as (s2 & -> & Hf).
    apply cap_inv in Hf. destruct Hf as (ds & s3 & m' & -> & _ & _ & -> & Hf). apply lit_inv in Hf. destruct Hf as (s4 & -> & Hf).
    apply cap_inv in Hf. destruct Hf as (bs & s5 & m'' & -> & _ & _ & -> & Hf).
    unfold deserializeBaseSumGate, field in Hr. cbn [lookup String.eqb Ascii.eqb Bool.eqb of_opt bind] in Hr.
    apply bind_ret in Hr. destruct Hr as (n & Hn & Hr). apply bind_ret in Hr. destruct Hr as (b & Hb & Hr). injection Hr as <-.
    apply number_ret in Hn, Hb. apply int_text_iff in Hn, Hb.
    eexists. split; [exact (t_base_sum n b ds bs Hn Hb)|]. exists pre, s5. now rewrite !app_assoc_reverse.
  - destruct (sound_one _ _ _ _ _ _ Hf Hr) as (ds & n & Ht & -> & Ho). eexists. split; [|exact Ho]. now apply t_constant.
  - apply find_inv in Hf. destruct Hf as (pre & s1 & -> & Hf). apply lit_inv in Hf. destruct Hf as (s2 & -> & Hf).
    apply cap_inv in Hf. destruct Hf as (ns & s3 & m' & -> & _ & _ & -> & Hf). apply lit_inv in Hf. destruct Hf as (s4 & -> & Hf).
    apply cap_inv in Hf. destruct Hf as (ds & s5 & m'' & -> & _ & _ & -> & Hf). apply lit_inv in Hf. destruct Hf as (s6 & -> & Hf).
    apply cap_inv in Hf. destruct Hf as (t & s7 & m3 & -> & _ & _ & -> & Hf). apply lit_inv in Hf. destruct Hf as (s8 & -> & Hf).
    unfold deserializeCosetInterpolationGate, field in Hr. cbn [lookup String.eqb Ascii.eqb Bool.eqb of_opt bind] in Hr.
    apply bind_ret in Hr. destruct Hr as (n & Hn & Hr). apply bind_ret in Hr. destruct Hr as (d & Hd & Hr).
    apply bind_ret in Hr. destruct Hr as (u & Hu & Hr). destruct (Nat.ltb d 2) eqn:L; [discriminate Hu|]. apply Nat.ltb_ge in L.
    apply bind_ret in Hr. destruct Hr as (ws & Hw & Hr). injection Hr as <-.
    apply number_ret in Hn, Hd. apply uint64_text_iff in Hn, Hd. apply weights_inv in Hw.
    eexists. split; [exact (t_coset n d ws ns ds t Hn Hd L Hw)|]. exists pre, s8. rewrite !app_assoc_reverse. reflexivity.
  - apply find_inv in Hf. destruct Hf as (pre & s1 & -> & Hf). apply lit_inv in Hf. destruct Hf as (s2 & -> & Hf).
    apply cap_inv in Hf. destruct Hf as (ds & s3 & m' & -> & _ & _ & -> & Hf). apply lit_inv in Hf. destruct Hf as (s4 & -> & Hf).
    apply cap_inv in Hf. destruct Hf as (bs & s5 & m'' & -> & _ & _ & -> & Hf). apply lit_inv in Hf. destruct Hf as (s6 & -> & Hf).
    unfold deserializeExponentiationGate, field in Hr. cbn [lookup String.eqb Ascii.eqb Bool.eqb of_opt bind] in Hr.
    apply bind_ret in Hr. destruct Hr as (n & Hn & Hr). apply bind_ret in Hr. destruct Hr as (b & Hb & Hr).
    apply bind_ret in Hr. destruct Hr as (u & Hu & Hr). injection Hr as <-. destruct (Nat.eqb_spec b D) as [->|]; [|discriminate Hu].
    apply number_ret in Hn, Hb. apply int_text_iff in Hn, Hb.
    eexists. split; [exact (t_exponentiation n ds bs Hn (proj1 Hb))|]. exists pre, s6. rewrite !app_assoc_reverse. reflexivity.
  - destruct (sound_one _ _ _ _ _ _ Hf Hr) as (ds & n & Ht & -> & Ho). eexists. split; [|exact Ho]. now apply t_mul_extension.
  - injection Hr as <-. eexists. split; [apply t_noop|]. exact (find_occurs _ _ _ Hf).
  - injection Hr as <-. eexists. split; [apply t_poseidon|]. exact (find_occurs _ _ _ Hf).
  - injection Hr as <-. eexists. split; [apply t_poseidon_mds|]. exact (find_occurs _ _ _ Hf).
  - injection Hr as <-. eexists. split; [apply t_public_input|]. exact (find_occurs _ _ _ Hf).
  - apply find_inv in Hf. destruct Hf as (pre & s1 & -> & Hf). apply lit_inv in Hf. destruct Hf as (s2 & -> & Hf).
    apply cap_inv in Hf. destruct Hf as (ns & s3 & m' & -> & _ & _ & -> & Hf). apply lit_inv in Hf. destruct Hf as (s4 & -> & Hf).
    apply cap_inv in Hf. destruct Hf as (cs & s5 & m'' & -> & _ & _ & -> & Hf). apply lit_inv in Hf. destruct Hf as (s6 & -> & Hf).
    apply cap_inv in Hf. destruct Hf as (xs & s7 & m3 & -> & _ & _ & -> & Hf). apply lit_inv in Hf. destruct Hf as (s8 & -> & Hf).
    apply cap_inv in Hf. destruct Hf as (bs & s9 & m4 & -> & _ & _ & -> & Hf). apply lit_inv in Hf. destruct Hf as (s10 & -> & Hf).
    unfold deserializeRandomAccessGate, field in Hr. cbn [lookup String.eqb Ascii.eqb Bool.eqb of_opt bind] in Hr.
    apply bind_ret in Hr. destruct Hr as (n & Hn & Hr). apply bind_ret in Hr. destruct Hr as (c & Hc & Hr). apply bind_ret in Hr. destruct Hr as (x & Hx & Hr).
    apply bind_ret in Hr. destruct Hr as (b & Hb & Hr).
    apply bind_ret in Hr. destruct Hr as (u & Hu & Hr). injection Hr as <-. destruct (Nat.eqb_spec b D) as [->|]; [|discriminate Hu].
    apply number_ret in Hn, Hc, Hx, Hb. apply uint64_text_iff in Hn, Hc, Hx. apply int_text_iff in Hb.
    eexists. split; [exact (t_random_access n c x ns cs xs bs Hn Hc Hx (proj1 Hb))|]. exists pre, s10. rewrite !app_assoc_reverse. reflexivity.
  - destruct (sound_one _ _ _ _ _ _ Hf Hr) as (ds & n & Ht & -> & Ho). eexists. split; [|exact Ho]. now apply t_reducing_extension.
  - destruct (sound_one _ _ _ _ _ _ Hf Hr) as (ds & n & Ht & -> & Ho). eexists. split; [|exact Ho]. now apply t_reducing.
Qed.

(** ** Parsing ends with a gate or a panic *)
Definition settled {A} (c : circ A) : Prop := (exists a, c = Ret a) \/ exists m, c = Panic m.
Lemma settled_ret {A} (a : A) : settled (Ret a). Proof. left. now exists a. Qed.
Lemma settled_panic {A} m : settled (@Panic A m). Proof. right. now exists m. Qed.
Lemma settled_opt {A} m (o : option A) : settled (of_opt m o).
Proof. destruct o; [apply settled_ret|apply settled_panic]. Qed.
Lemma settled_bind {A B} (c : circ A) (f : A -> circ B) : settled c -> (forall a, settled (f a)) -> settled (bind c f).
Proof. intros [[a ->]|[m ->]] H; [apply H|apply settled_panic]. Qed.
Lemma settled_mapM {A B} (f : A -> circ B) l : (forall a, settled (f a)) -> settled (mapM f l).
Proof.
  intros H. induction l as [|a l IH]; [apply settled_ret|]. cbn [mapM]. apply settled_bind; [apply H|]. intros b.
  apply settled_bind; [exact IH|]. intros bs. apply settled_ret.
Qed.
Lemma settled_handlers : forall h m, In h gateRegexHandlers -> settled (snd h m).
Proof.
  intros h m Hin.
  repeat (destruct Hin as [<-|Hin]; [cbn [snd]; unfold deserialize1, deserializeBaseSumGate, deserializeCosetInterpolationGate, deserializeExponentiationGate,
    deserializeRandomAccessGate, field, number;
    repeat first [apply settled_ret | apply settled_panic | apply settled_opt | apply settled_mapM; intros ? | apply settled_bind; [|intros ?] | match goal with |- settled (if ?b then _ else _) => destruct b end] |]).
  destruct Hin.
Qed.
Lemma settled_gate order id : incl order gateRegexHandlers -> settled (GateInstanceFromId order id).
Proof.
  induction order as [|[r f] order IH]; intros H; cbn [GateInstanceFromId]; [apply settled_panic|].
  destruct (find r (chars id)) as [m|]; [|apply IH; intros h Hh; apply H; now right].
  apply (settled_handlers (r, f) m). apply H. now left.
Qed.

(** ** Printing numbers *)
Lemma str_app a b : str (a ++ b) = (str a ++ str b)%list.
Proof. induction a as [|c a IH]; [reflexivity|]. cbn. now rewrite <- IH. Qed.
Lemma digit_char n : (n < 10)%N -> N_of_ascii (ascii_of_N (48 + n)) = (48 + n)%N.
Proof. intros H. apply N_ascii_embedding. lia. Qed.
Lemma dec_snoc s c : dec (s ++ [c]) = 10 * dec s + digit_val c.
Proof. unfold dec. now rewrite fold_left_app. Qed.
Lemma show_fuel_ok f : forall n, (n < 2 ^ N.of_nat f)%N -> numeral (str (show_fuel (S f) n)) (Z.of_N n).
Proof.
  assert (D1 : forall n, (n < 10)%N -> is_digit (ascii_of_N (48 + n)) = true) by (intros n H; apply digit_range; rewrite digit_char by exact H; lia).
  assert (V1 : forall n, (n < 10)%N -> digit_val (ascii_of_N (48 + n)) = Z.of_N n) by (intros n H; unfold digit_val; rewrite digit_char by exact H; lia).
  induction f as [|f IH]; intros n Hn; apply numeral_iff.
  - assert (n = 0)%N as -> by (change (2 ^ N.of_nat 0)%N with 1%N in Hn; lia). split; [discriminate|]. split; reflexivity.
  - change (show_fuel (S (S f)) n) with (if (n <? 10)%N then String (ascii_of_N (48 + n)) "" else (show_fuel (S f) (n / 10) ++ String (ascii_of_N (48 + n mod 10)) "")%string).
    destruct (N.ltb_spec n 10) as [L|L].
    + cbn [list_ascii_of_string]. split; [discriminate|]. split; [cbn [forallb]; now rewrite D1|].
      change [ascii_of_N (48 + n)] with ([] ++ [ascii_of_N (48 + n)])%list. rewrite dec_snoc, V1 by exact L. reflexivity.
    + rewrite str_app. cbn [list_ascii_of_string]. pose proof (N.mod_lt n 10 ltac:(discriminate)) as M.
      assert (Hf : (n / 10 < 2 ^ N.of_nat f)%N).
      { apply N.div_lt_upper_bound; [discriminate|]. rewrite Nat2N.inj_succ, N.pow_succ_r' in Hn. lia. }
      specialize (IH _ Hf). apply numeral_iff in IH. destruct IH as (_ & I2 & I3).
      split; [intros E; apply app_eq_nil in E; destruct E as [_ E]; discriminate E|].
      split; [rewrite forallb_app, I2; cbn [forallb]; now rewrite D1|].
      rewrite dec_snoc, <- I3, V1 by exact M. pose proof (N.div_mod n 10 ltac:(discriminate)) as E. lia.
Qed.
Lemma size_nat_gt n : (n < 2 ^ N.of_nat (N.size_nat n))%N.
Proof.
  destruct n as [|p]; [reflexivity|]. cbn [N.size_nat]. induction p as [p IHp|p IHp|]; [| |reflexivity].
  all: cbn [Pos.size_nat]; rewrite Nat2N.inj_succ, N.pow_succ_r'; lia.
Qed.
Lemma show_numeral n : numeral (str (show n)) (Z.of_nat n).
Proof. rewrite <- nat_N_Z. unfold show. apply show_fuel_ok. apply size_nat_gt. Qed.
Lemma show_int n : Z.of_nat n < 2 ^ 63 -> int_text (str (show n)) n.
Proof. intros H. split; [apply show_numeral|exact H]. Qed.

(** ** Ids that are not parsed back *)
Lemma occurs_in_lit {A} (k l s : list A) : occurs k l -> occurs l s -> occurs k s.
Proof. intros (a & b & ->) (c & d & ->). exists (c ++ a), (b ++ d). now rewrite !app_assoc_reverse. Qed.
Lemma occurs_app_r {A} (k a s : list A) : occurs k s -> occurs k (a ++ s).
Proof. intros (x & y & ->). exists (a ++ x), y. now rewrite app_assoc_reverse. Qed.
Lemma occurs_app_l {A} (k a s : list A) : occurs k s -> occurs k (s ++ a).
Proof. intros (x & y & ->). exists x, (y ++ a). now rewrite !app_assoc_reverse. Qed.
Lemma phantom_occurs s' : occurs (chars "phantom") (chars phantom ++ s').
Proof.
  apply occurs_app_l. exists (chars ", _"), (chars ": PhantomData<plonky2_field::goldilocks_field::GoldilocksField> }<D="). reflexivity.
Qed.
Lemma no_phantom_exp s : ~ occurs (chars "phantom") s -> find exponentiationGateRegex s = None.
Proof.
  intros N. destruct (find exponentiationGateRegex s) as [m|] eqn:Hf; [|reflexivity]. exfalso. apply N. clear N.
  apply find_inv in Hf. destruct Hf as (pre & s1 & -> & Hf). apply lit_inv in Hf. destruct Hf as (s2 & -> & Hf).
  apply cap_inv in Hf. destruct Hf as (ds & s3 & m' & -> & _ & _ & -> & Hf). apply lit_inv in Hf. destruct Hf as (s4 & -> & _).
  do 3 apply occurs_app_r. apply phantom_occurs.
Qed.
Lemma no_phantom_ra s : ~ occurs (chars "phantom") s -> find randomAccessGateRegex s = None.
Proof.
  intros N. destruct (find randomAccessGateRegex s) as [m|] eqn:Hf; [|reflexivity]. exfalso. apply N. clear N.
  apply find_inv in Hf. destruct Hf as (pre & s1 & -> & Hf). apply lit_inv in Hf. destruct Hf as (s2 & -> & Hf).
  apply cap_inv in Hf. destruct Hf as (ds & s3 & m' & -> & _ & _ & -> & Hf). apply lit_inv in Hf. destruct Hf as (s4 & -> & Hf).
  apply cap_inv in Hf. destruct Hf as (cs & s5 & m'' & -> & _ & _ & -> & Hf). apply lit_inv in Hf. destruct Hf as (s6 & -> & Hf).
  apply cap_inv in Hf. destruct Hf as (xs & s7 & m3 & -> & _ & _ & -> & Hf). apply lit_inv in Hf. destruct Hf as (s8 & -> & _).
  do 7 apply occurs_app_r. apply phantom_occurs.
Qed.
Lemma no_phantom_coset s : ~ occurs (chars "phantom") s -> find cosetInterpolationGateRegex s = None.
Proof.
  intros N. destruct (find cosetInterpolationGateRegex s) as [m|] eqn:Hf; [|reflexivity]. exfalso. apply N. clear N.
  apply find_inv in Hf. destruct Hf as (pre & s1 & -> & Hf). apply lit_inv in Hf. destruct Hf as (s2 & -> & Hf).
  apply cap_inv in Hf. destruct Hf as (ns & s3 & m' & -> & _ & _ & -> & Hf). apply lit_inv in Hf. destruct Hf as (s4 & -> & Hf).
  apply cap_inv in Hf. destruct Hf as (ds & s5 & m'' & -> & _ & _ & -> & Hf). apply lit_inv in Hf. destruct Hf as (s6 & -> & Hf).
  apply cap_inv in Hf. destruct Hf as (t & s7 & m3 & -> & _ & _ & -> & Hf). apply lit_inv in Hf. destruct Hf as (s8 & -> & _).
  do 7 apply occurs_app_r. apply occurs_app_l. exists (chars "], _"), (chars ": PhantomData<plonky2_field::goldilocks_field::GoldilocksField> }<D=2>"). reflexivity.
Qed.
(** a variable part without letters in the wide sense needed for [sprint] *)
Definition plain (s : list ascii) : Prop := forall c, In c s -> (N_of_ascii c < 65 \/ N_of_ascii c = 91 \/ N_of_ascii c = 93)%N.
Lemma plain_list s : forallb is_list_char s = true -> plain s.
Proof.
  intros H c Hc. rewrite forallb_forall in H. specialize (H c Hc). left. destruct (N.ltb_spec (N_of_ascii c) 65) as [L|L]; [exact L|].
  assert (is_letter c = true) as E by (unfold is_letter; now apply N.leb_le). now rewrite (letter_not_list c E) in H.
Qed.
Definition strict_letter (c : ascii) : bool := (65 <=? N_of_ascii c)%N && negb (N_of_ascii c =? 91)%N && negb (N_of_ascii c =? 93)%N.
Lemma occurs_flatten_plain k segs : forall l, k <> [] -> forallb strict_letter k = true -> Forall (fun vl => fst vl <> [] /\ plain (fst vl)) segs ->
  occurs k (flatten l segs) -> exists t, In t (lits l segs) /\ occurs k t.
Proof.
  induction segs as [|[v l'] segs IH]; intros l Hk Hl Hs H; cbn [flatten lits] in *; [exists l; split; [now left|exact H]|].
  inversion Hs as [|? ? [Hv1 Hv2] Hs']; subst. cbn [fst] in *.
  apply occurs_sep in H; [|exact Hk|exact Hv1|].
  - destruct H as [H|H]; [exists l; split; [now left|exact H]|].
    destruct (IH l' Hk Hl Hs' H) as (t & Ht & Ot). exists t. split; [now right|exact Ot].
  - intros c Hc Hc'. rewrite forallb_forall in Hl. specialize (Hv2 c Hc). specialize (Hl c Hc').
    unfold strict_letter in Hl. apply andb_prop in Hl. destruct Hl as [Hl H3]. apply andb_prop in Hl. destruct Hl as [H1 H2].
    apply N.leb_le in H1. apply negb_true_iff, N.eqb_neq in H2. apply negb_true_iff, N.eqb_neq in H3. lia.
Qed.
Definition absent_plain (k : list ascii) (ls : list (list ascii)) : bool :=
  match k with [] => false | _ => forallb strict_letter k && forallb (fun t => negb (occursb k t)) ls end.
Lemma absent_plain_occurs k l segs : Forall (fun vl => fst vl <> [] /\ plain (fst vl)) segs -> absent_plain k (lits l segs) = true ->
  ~ occurs k (flatten l segs).
Proof.
  intros Hs Ha Ho. assert (Hk : k <> []) by (intros ->; discriminate Ha).
  assert (Ha' : forallb strict_letter k && forallb (fun t => negb (occursb k t)) (lits l segs) = true) by (destruct k; [discriminate Ha|exact Ha]).
  apply andb_prop in Ha'. destruct Ha' as [H1 H2].
  destruct (occurs_flatten_plain k segs l Hk H1 Hs Ho) as (t & Ht & Ot). rewrite forallb_forall in H2. specialize (H2 t Ht).
  now rewrite (occurs_b _ _ Ot) in H2.
Qed.
(** no handler matches when its name, or the word "phantom" for the three of them, is absent *)
Lemma rejected order id l segs : incl order gateRegexHandlers -> str id = flatten l segs ->
  Forall (fun vl => fst vl <> [] /\ plain (fst vl)) segs -> absent_plain (chars "phantom") (lits l segs) = true ->
  (forall h, In h gateRegexHandlers -> absent_plain (key (fst h)) (lits l segs) = true \/
     fst h = exponentiationGateRegex \/ fst h = randomAccessGateRegex \/ fst h = cosetInterpolationGateRegex) ->
  GateInstanceFromId order id = Panic ("Unknown gate ID " ++ id).
Proof.
  intros HP E Hs Hph Hu. apply no_handler. intros h Hh. apply HP in Hh. unfold chars. rewrite E.
  pose proof (absent_plain_occurs _ l segs Hs Hph) as N.
  destruct (Hu h Hh) as [A|[A|[A|A]]].
  - destruct (find (fst h) (flatten l segs)) as [m|] eqn:F; [|reflexivity]. exfalso. apply find_occurs in F.
    exact (absent_plain_occurs _ l segs Hs A F).
  - rewrite A. now apply no_phantom_exp.
  - rewrite A. now apply no_phantom_ra.
  - rewrite A. now apply no_phantom_coset.
Qed.
Ltac all_rejected := let h := fresh in let H := fresh in intros h H;
  repeat (destruct H as [<-|H]; [first [left; vm_compute; reflexivity | right; left; reflexivity | right; right; left; reflexivity | right; right; right; reflexivity]|]); destruct H.
Lemma show_plain n : str (show n) <> [] /\ plain (str (show n)).
Proof.
  pose proof (show_numeral n) as H. apply numeral_iff in H. destruct H as (H1 & H2 & _). split; [exact H1|]. apply plain_list. now apply digits_list.
Qed.
Lemma Id_exp_rejected order sprint n : incl order gateRegexHandlers ->
  GateInstanceFromId order (Id sprint (ExponentiationGate n)) = Panic ("Unknown gate ID " ++ Id sprint (ExponentiationGate n)).
Proof.
  intros HP. apply (rejected order _ (chars "ExponentiationGate { num_power_bits: ") [(str (show n), chars " }")] HP).
  - cbn [Id]. rewrite !str_app. reflexivity.
  - constructor; [apply show_plain|constructor].
  - vm_compute. reflexivity.
  - all_rejected.
Qed.
Lemma Id_ra_rejected order sprint b c x : incl order gateRegexHandlers ->
  GateInstanceFromId order (Id sprint (RandomAccessGate b c x)) = Panic ("Unknown gate ID " ++ Id sprint (RandomAccessGate b c x)).
Proof.
  intros HP. apply (rejected order _ (chars "RandomAccessGate { bits: ")
    [(str (show b), chars ", num_copies: "); (str (show c), chars ", num_extra_constants: "); (str (show x), chars " }")] HP).
  - cbn [Id]. rewrite !str_app. reflexivity.
  - repeat (constructor; [apply show_plain|]). constructor.
  - vm_compute. reflexivity.
  - all_rejected.
Qed.
Lemma Id_coset_rejected order sprint n d ws : incl order gateRegexHandlers -> str (sprint ws) <> [] -> plain (str (sprint ws)) ->
  GateInstanceFromId order (Id sprint (CosetInterpolationGate n d ws)) = Panic ("Unknown gate ID " ++ Id sprint (CosetInterpolationGate n d ws)).
Proof.
  intros HP Hne Hpl. apply (rejected order _ (chars "CosetInterpolationGate { subgroup_bits: ")
    [(str (show n), chars ", degree: "); (str (show d), chars ", barycentric_weights: "); (str (sprint ws), chars " }")] HP).
  - cbn [Id]. rewrite !str_app. reflexivity.
  - do 2 (constructor; [apply show_plain|]). constructor; [split; assumption|constructor].
  - vm_compute. reflexivity.
  - all_rejected.
Qed.
Lemma Id_text sprint g :
  match g with
  | ArithmeticGate n | ArithmeticExtensionGate n | ConstantGate n | MultiplicationExtensionGate n | ReducingExtensionGate n | ReducingGate n => Z.of_nat n < 2 ^ 63
  | BaseSumGate n b => Z.of_nat n < 2 ^ 63 /\ Z.of_nat b < 2 ^ 63
  | NoopGate | PoseidonGate | PoseidonMdsGate | PublicInputGate => True
  | CosetInterpolationGate _ _ _ | ExponentiationGate _ | RandomAccessGate _ _ _ => False
  end -> gate_text g (str (Id sprint g)).
Proof.
  destruct g; intros H; try (destruct H; fail); cbn [Id]; rewrite ?str_app.
  - apply t_arithmetic. now apply show_int.
  - apply t_arithmetic_extension. now apply show_int.
  - destruct H as [H H']. apply t_base_sum; now apply show_int.
  - apply t_constant. now apply show_int.
  - apply t_mul_extension. now apply show_int.
  - apply t_noop.
  - apply t_poseidon.
  - apply t_poseidon_mds.
  - apply t_public_input.
  - apply t_reducing_extension. now apply show_int.
  - apply t_reducing. now apply show_int.
Qed.
Lemma created_ok orders gates ids : (forall i, Permutation (orders i) gateRegexHandlers) ->
  Forall2 gate_text gates (map str ids) -> createdGates orders ids = Ret gates.
Proof.
  intros HP. unfold createdGates. generalize 0%nat as k. revert gates. induction ids as [|id ids IH]; intros gates k H; cbn [map] in H; inversion H as [|g ? gs ? Hg Hgs]; subst; [reflexivity|].
  cbn [length seq combine mapM fst snd]. rewrite (complete g id (orders k) Hg (HP k)). cbn [bind]. rewrite (IH gs (S k) Hgs). reflexivity.
Qed.
Lemma created_inv orders gates ids : (forall i, incl (orders i) gateRegexHandlers) -> createdGates orders ids = Ret gates ->
  Forall2 (fun g id => exists t, gate_text g t /\ occurs t (str id)) gates ids.
Proof.
  intros HP. unfold createdGates. generalize 0%nat as k. revert gates. induction ids as [|id ids IH]; intros gates k H; cbn [length seq combine mapM fst snd] in H.
  - injection H as <-. constructor.
  - apply bind_ret in H. destruct H as (g & Hg & H). apply bind_ret in H. destruct H as (gs & Hgs & H). injection H as <-.
    constructor; [exact (sound id (orders k) g (HP k) Hg)|exact (IH gs (S k) Hgs)].
Qed.
