(** Builder.v -- the builder pattern (/repo/src/builder, <container>/builder.rs), the configurations made from
    builders (IntoConfig in <container>/config.rs), and what is built from every configuration.

    Simplifications: the round trip of a configuration through text (to_toml_string, toml::de::from_str) is the
    identity, so capacities are below 2^63 (a toml integer is an i64).  The type parameter of a wrapping builder is
    either the container or the configuration of what it wraps, so that one Rust value cannot be both built and
    converted; a builder here is the expression that makes either. *)
From Coq Require Import String ZArith QArith NArith Init.Byte.
From Verif Require Import Base Block Array BTree Batch Exclusive Wrappers Associative Stream IOVec ByteStream Compressed Arch Decorations Hasher Config.
Set Implicit Arguments.
Local Open Scope string_scope.
Local Open Scope list_scope.
Local Open Scope nat_scope.

(** A container in some state. *)
Record machine (K V : Type) : Type := mkM { m_block : Block K V; m_state : St m_block }.
Section Machines.
Context {K V : Type} {OK : Ord K}.
Definition m_dyn (m : machine K V) : machine K V := mkM (DynB (m_block m)) (m_state m).
Definition m_remote (m : machine K V) : machine K V := mkM (RemoteB (m_block m)) (m_state m).
Definition m_flush_stopper (m : machine K V) : machine K V := mkM (FlushStopperB (m_block m)) (m_state m).
Definition m_sequential (m : machine K V) : machine K V := mkM (SequentialB (m_block m)) (m_state m).
Definition m_profiler (m : machine K V) : machine K V := @mkM K V (ProfilerB (m_block m)) (stats_zero, m_state m).
Definition m_exclusive (bs : BSearch K) (l r : machine K V) : machine K V :=
  @mkM K V (ExclusiveB bs (m_block l) (m_block r)) (m_state l, m_state r).
Definition m_many (n : nat) (f : nat -> machine K V) : list (St (SumB (fun i => m_block (f i)))) :=
  map (fun i => existT (fun i => St (m_block (f i))) i (m_state (f i))) (seq 0 n).
Definition m_batch (n : nat) (f : nat -> machine K V) : machine K V :=
  @mkM K V (BatchB (SumB (fun i => m_block (f i)))) (m_many n f).
Definition m_associative (hash : K -> N) (n : nat) (f : nat -> machine K V) : machine K V :=
  @mkM K V (AssociativeB hash (SumB (fun i => m_block (f i)))) (m_many n f).
Definition m_decorator {D} (F : Factory V D) (f0 : Fst F) (m : machine K D) : machine K V :=
  @mkM K V (DecoratorB F (m_block m)) (f0, m_state m).
End Machines.
Definition m_arch {K V} {OK : Ord K} (a : arch K V) : machine K V := mkM (block a) (init a).

(** What building a container over values [V] depends on: serde and bincode on its pairs, and the containers served
    at each address (simplification: every server a client is built for is running). *)
Record env (K V : Type) : Type := mkEnv {
  e_vec : VCodec (K * V);
  e_ser : K * V -> option (list byte);
  e_de : list byte -> option (K * V);
  e_server : string -> machine K V
}.

(** VecStreamFactory and TempFileStreamFactory. *)
Inductive factory : Type := FVec | FTemp (name : string). (* [name]: the next temporary file *)
Inductive bdeco : Type := BFifo | BLru | BLrfu (exponent : Q).

(** The builders: ArrayBuilder (/repo/src/array/builder.rs), BTreeBuilder, CompressedBuilder, StreamBuilder,
    SocketClientBuilder, AssociativeBuilder (builder, set_hasher, num_sets), ExclusiveBuilder, InclusiveBuilder,
    FlushStopperBuilder, ProfilerBuilder, SequentialBuilder, DecoratorBuilder. *)
Inductive builder (K : Type) : Type :=
| BArray (cap : nat)
| BBTree (cap : nat)
| BCompressed (f : factory) (cap : nat)
| BStream (f : factory) (cap : nat)
| BSocket (address : string)
| BAssociative (key_hasher : K -> N) (set_hasher : exhasher) (num_sets : nat) (b : builder K)
| BExclusive (front back : builder K)
| BInclusive (front back : builder K)
| BFlushStopper (b : builder K)
| BProfiler (b : builder K)
| BSequential (b : builder K)
| BDecorator (d : bdeco) (b : builder K).
Arguments BArray {K}. Arguments BBTree {K}. Arguments BCompressed {K}. Arguments BStream {K}. Arguments BSocket {K}.

(** AssociativeBuilder::new, /repo/src/associative/builder.rs:77-84; into_associative is the same. *)
Definition associative_new {K} (b : builder K) (key_hasher : K -> N) (num_sets : nat) : builder K :=
  BAssociative key_hasher (eh_new (N.of_nat num_sets)) num_sets b.
(** add_layer, /repo/src/associative/builder.rs:86-101, of a builder that is an AssociativeBuilder. *)
Definition add_layer {K} (b : builder K) (num_keys : nat) : res (builder K) :=
  match b with
  | BAssociative kh sh _ _ =>
      match eh_next sh (N.of_nat num_keys) with
      | Some h => Ok (BAssociative kh h num_keys b)
      | None => Panic
      end
  | _ => Panic
  end.

(** ** From a builder to a configuration *)
Definition decoration_toml (d : bdeco) : toml :=
  match d with
  | BFifo => TTable [("kind", TStr "Fifo")]
  | BLru => TTable [("kind", TStr "Lru")]
  | BLrfu e => TTable [("kind", TStr "Lrfu"); ("exponent", TFloat e)]
  end.
(** [as_config] as a toml value: array/config.rs:61-68, btree/config.rs:62-71, compression/config.rs:50-79 (no file
    name with VecStreamFactory), stream/config.rs:46-53, socket/config.rs:56-65, associative/config.rs:50-68 (the same
    child for every set), exclusive/config.rs:51-73, inclusive/config.rs:18-40, flush_stopper/config.rs:43-57,
    profiler/config.rs:44-58, sequential/config.rs:43-57, decorator/config.rs:9-18 and 56-129. *)
Fixpoint as_toml {K} (b : builder K) : toml :=
  match b with
  | BArray cap => TTable [("id", TStr "ArrayConfig"); ("capacity", TInt (Z.of_nat cap))]
  | BBTree cap => TTable [("id", TStr "BTreeConfig"); ("capacity", TInt (Z.of_nat cap))]
  | BCompressed FVec cap => TTable [("id", TStr "CompressedConfig"); ("capacity", TInt (Z.of_nat cap))]
  | BCompressed (FTemp f) cap =>
      TTable [("id", TStr "CompressedConfig"); ("filename", TStr f); ("capacity", TInt (Z.of_nat cap))]
  | BStream _ cap => TTable [("id", TStr "StreamConfig"); ("capacity", TInt (Z.of_nat cap))]
  | BSocket a => TTable [("id", TStr "SocketClientConfig"); ("address", TStr a)]
  | BAssociative _ _ n b => TTable [("id", TStr "AssociativeConfig"); ("container", TArr (repeat (as_toml b) n))]
  | BExclusive f b => TTable [("id", TStr "ExclusiveConfig"); ("front", as_toml f); ("back", as_toml b)]
  | BInclusive f b => TTable [("id", TStr "InclusiveConfig"); ("front", as_toml f); ("back", as_toml b)]
  | BFlushStopper b => TTable [("id", TStr "FlushStopperConfig"); ("container", as_toml b)]
  | BProfiler b => TTable [("id", TStr "ProfilerConfig"); ("container", as_toml b)]
  | BSequential b => TTable [("id", TStr "SequentialConfig"); ("container", as_toml b)]
  | BDecorator d b =>
      TTable [("id", TStr "DecoratorConfig"); ("decorator", decoration_toml d); ("container", as_toml b)]
  end.

(** SocketServerConfig: from_toml (/repo/src/socket/config.rs:150-170; the id must be a string and is not looked at),
    and From<&SocketServerBuilder>, lines 184-204. *)
Definition server_from_toml (address_ok : string -> bool) (v : toml) : option (string * config) :=
  match v with
  | TTable t =>
      obind (look "id" t) (fun i => obind (as_string i) (fun _ =>
      obind (look "address" t) (fun a => obind (as_string a) (fun a =>
      obind (look "container" t) (fun c =>
        if address_ok a then obind (generic_from_toml address_ok c) (fun c => Some (a, c)) else None)))))
  | _ => None
  end.
Definition server_toml {K} (address : string) (b : builder K) : toml :=
  TTable [("id", TStr "SocketServerConfig"); ("address", TStr address); ("container", as_toml b)].

(** ** Building *)
Section Build.
Context {K : Type} {OK : Ord K}.
Variable bs : BSearch K.
Variable srt : forall V (OV : Ord V), Sorter (K * V) V snd.
(** DefaultHasher of the standard library. *)
Variable hash : K -> N.
Variable L : Lz.
(** The files of the system when a FileStream opens them. *)
Variable disk : string -> list byte.

(** [build] of every configuration, /repo/src/<container>/config.rs, as [Config.build] for all containers:
    CompressedConfig (compression/config.rs:81-114) and StreamConfig (stream/config.rs:70-87) with the feature
    tempfile, SocketClientConfig (socket/config.rs:92-99).  Simplification: files are not shared between the
    containers of one configuration. *)
Fixpoint assemble {V : Type} {OV : Ord V} (e : env K V) (c : config) : machine K V :=
  let many l := fun i => nth i (map (assemble e) l) (m_arch (ABTree OV 0 (fun _ => 1))) in
  match c with
  | CArray cap => m_dyn (mkM (ArrayB (srt OV) bs) (array_new cap (fun _ => 1)))
  | CBTree cap => m_dyn (mkM BTreeB (btree_new cap (fun _ => 1)))
  | CCompressed f cap =>
      m_dyn (mkM (CompressedB FileStream L (e_vec e) (srt OV) bs)
                 (c_new FileStream (match f with Some f => ((disk f, 0), tt) | None => s_new FileStream end) cap))
  | CStream cap => m_dyn (mkM (ByteStreamB FileStream bs (e_ser e) (e_de e)) (bs_new FileStream cap))
  | CSocket a => m_dyn (m_remote (e_server e a))
  | CBatch l => m_dyn (m_batch (length l) (many l))
  | CAssociative l => m_dyn (m_associative hash (length l) (many l))
  | CExclusive f b => m_dyn (m_exclusive bs (assemble e f) (assemble e b))
  | CFlushStopper c => m_dyn (m_flush_stopper (assemble e c))
  | CProfiler c => m_dyn (m_profiler (assemble e c))
  | CSequential c => m_dyn (m_sequential (assemble e c))
  end.

(** Serialization of decorated values (#[derive] in /repo/src/decorator/fifo.rs:12 and lru.rs:12) over that of the
    values, and the same servers. *)
Variable env_fifo : forall V, env K V -> env K (fifo_cell V).
Variable env_lru : forall V, env K V -> env K (lru_cell V).
(** The readings of the timestamps. *)
Variable clock : nat -> nat.

(** A decorated container: [Decorator::new] in DecoratorBuilder::build (/repo/src/decorator/builder.rs:61-69) and in
    DecoratorConfig::build (/repo/src/decorator/config.rs:138-178).  [None] for Lrfu, whose comparison is not an order
    (PLrfu.v). *)
Definition decorate {V : Type} (e : env K V) (d : bdeco)
    (make : forall V (OV : Ord V), env K V -> option (machine K V)) : option (machine K V) :=
  match d with
  | BFifo => obind (make (fifo_cell V) fifo_ord (env_fifo e)) (fun m => Some (m_decorator (Fifo (V := V)) fifo_new m))
  | BLru => obind (make (lru_cell V) lru_ord (env_lru e)) (fun m => Some (m_decorator (Lru (V := V) clock) 0 m))
  | BLrfu _ => None
  end.
(** [build] of each builder, <container>/builder.rs.  [None] for Inclusive (Inclusive.v) and Lrfu.  Timestamps: those
    of the configurations, Counter. *)
Fixpoint b_assemble {V : Type} {OV : Ord V} (e : env K V) (b : builder K) : option (machine K V) :=
  match b with
  | BArray cap => Some (mkM (ArrayB (srt OV) bs) (array_new cap (fun _ => 1)))
  | BBTree cap => Some (mkM BTreeB (btree_new cap (fun _ => 1)))
  | BCompressed FVec cap =>
      Some (mkM (CompressedB VecStream L (e_vec e) (srt OV) bs) (c_new VecStream (s_new VecStream) cap))
  | BCompressed (FTemp _) cap =>
      Some (mkM (CompressedB FileStream L (e_vec e) (srt OV) bs) (c_new FileStream (s_new FileStream) cap))
  | BStream FVec cap => Some (mkM (ByteStreamB VecStream bs (e_ser e) (e_de e)) (bs_new VecStream cap))
  | BStream (FTemp _) cap => Some (mkM (ByteStreamB FileStream bs (e_ser e) (e_de e)) (bs_new FileStream cap))
  | BSocket a => Some (m_remote (e_server e a))
  | BAssociative kh sh n b =>
      obind (b_assemble e b) (fun m => Some (m_associative (fun k => finish sh (kh k)) n (fun _ => m)))
  | BExclusive f b => obind (b_assemble e f) (fun f => obind (b_assemble e b) (fun b => Some (m_exclusive bs f b)))
  | BInclusive _ _ => None
  | BFlushStopper b => obind (b_assemble e b) (fun m => Some (m_flush_stopper m))
  | BProfiler b => obind (b_assemble e b) (fun m => Some (m_profiler m))
  | BSequential b => obind (b_assemble e b) (fun m => Some (m_sequential m))
  | BDecorator d b => decorate e d (fun V OV e => b_assemble e b)
  end.

(** [builder.as_config().build()]: the struct is built without being parsed, but what it contains is a toml value
    parsed by [GenericConfig::from_toml(..).unwrap()].  [Ok None]: an Inclusive or an Lrfu decorator. *)
Variable address_ok : string -> bool.
Definition config_build {V : Type} {OV : Ord V} (e : env K V) (b : builder K) : res (option (machine K V)) :=
  match b with
  | BDecorator d b =>
      match generic_from_toml address_ok (as_toml b) with
      | None => Panic
      | Some c => Ok (obind (decorate e d (fun V OV e => Some (assemble e c))) (fun m => Some (m_dyn m)))
      end
  | BInclusive f b =>
      match generic_from_toml address_ok (as_toml f), generic_from_toml address_ok (as_toml b) with
      | Some _, Some _ => Ok None
      | _, _ => Panic
      end
  | _ =>
      match generic_from_toml address_ok (as_toml b) with
      | None => Panic
      | Some c => Ok (Some (assemble e c))
      end
  end.
End Build.
