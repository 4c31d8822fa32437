(** Config.v -- building containers from configurations (/repo/src/config, <container>/config.rs) and the conversion of
    boxed containers to concurrent ones (/repo/src/objsafe/building_block.rs).

    A configuration is a parsed toml value; parsing text, and the round trip value -> text -> struct that each
    [from_toml] makes, are not modelled (the latter is taken as the identity; serde ignores unknown fields).
    Errors are not distinguished from each other. *)
From Coq Require Import String ZArith QArith NArith.
From Verif Require Import Base Block Array BTree Batch Exclusive Wrappers Associative Arch Decorations.
Set Implicit Arguments.
Local Open Scope string_scope.
Local Open Scope list_scope.
Local Open Scope nat_scope.

(** toml::Value.  A table has each key once. *)
Inductive toml : Type :=
| TStr (s : string)
| TInt (z : Z)
| TFloat (q : Q)
| TBool (b : bool)
| TArr (l : list toml)
| TTable (t : list (string * toml)).

Fixpoint look {T} (k : string) (t : list (string * T)) : option T :=
  match t with
  | [] => None
  | (k', v) :: t' => if String.eqb k k' then Some v else look k t'
  end.

(** The configuration structs: ArrayConfig (/repo/src/array/config.rs:33-38), AssociativeConfig, BatchConfig,
    BTreeConfig, CompressedConfig, ExclusiveConfig, FlushStopperConfig, ProfilerConfig, SequentialConfig,
    SocketClientConfig, StreamConfig, with their children as parsed by [GenericConfig::from_toml].
    Simplification: the code keeps the children as toml and parses them again when building; the second parse
    gives the same result. *)
Inductive config : Type :=
| CArray (capacity : nat)
| CBTree (capacity : nat)
| CCompressed (filename : option string) (capacity : nat)
| CStream (capacity : nat)
| CSocket (address : string)
| CBatch (l : list config)
| CAssociative (l : list config)
| CExclusive (front back : config)
| CFlushStopper (c : config)
| CProfiler (c : config)
| CSequential (c : config).

(** serde: a field of type usize, String, Option<String>. *)
Definition as_usize (v : toml) : option nat :=
  match v with TInt z => if (0 <=? z)%Z then Some (Z.to_nat z) else None | _ => None end.
Definition as_string (v : toml) : option string := match v with TStr s => Some s | _ => None end.
Definition obind {A B} (o : option A) (f : A -> option B) : option B := match o with Some a => f a | None => None end.
Fixpoint all_some {A} (l : list (option A)) : option (list A) :=
  match l with
  | [] => Some []
  | o :: l' => obind o (fun a => obind (all_some l') (fun l => Some (a :: l)))
  end.

Section Parse.
(** [to_socket_addrs] accepts the address (/repo/src/socket/config.rs:82-89). *)
Variable address_ok : string -> bool.

(** The part of [from_toml] of one table, given for each field its value, the parse of it, and the parses of
    its elements if it is an array: GenericConfig::from_toml, /repo/src/config/generic_config.rs:56-123, and
    the [from_toml] of each <container>/config.rs. *)
Definition table_config (t : list (string * (toml * (option config * list (option config))))) : option config :=
  let capacity f := obind (look "capacity" t) (fun p => obind (as_usize (fst p)) f) in
  let child name f := obind (look name t) (fun p => obind (fst (snd p)) f) in
  let children f := obind (look "container" t) (fun p =>
    match fst p with TArr _ => obind (all_some (snd (snd p))) f | _ => None end) in
  obind (look "id" t) (fun p => obind (as_string (fst p)) (fun id =>
    if String.eqb id "ArrayConfig" then capacity (fun n => Some (CArray n))
    else if String.eqb id "AssociativeConfig" then children (fun l => Some (CAssociative l))
    else if String.eqb id "BatchConfig" then children (fun l => Some (CBatch l))
    else if String.eqb id "BTreeConfig" then capacity (fun n => Some (CBTree n))
    else if String.eqb id "CompressedConfig" then
      capacity (fun n =>
        match look "filename" t with
        | None => Some (CCompressed None n)
        | Some p => obind (as_string (fst p)) (fun s => Some (CCompressed (Some s) n))
        end)
    else if String.eqb id "ExclusiveConfig" then
      child "front" (fun l => child "back" (fun r => Some (CExclusive l r)))
    else if String.eqb id "FlushStopperConfig" then child "container" (fun c => Some (CFlushStopper c))
    else if String.eqb id "ProfilerConfig" then child "container" (fun c => Some (CProfiler c))
    else if String.eqb id "SequentialConfig" then child "container" (fun c => Some (CSequential c))
    else if String.eqb id "SocketClientConfig" then
      obind (look "address" t) (fun p => obind (as_string (fst p)) (fun a =>
        if address_ok a then Some (CSocket a) else None))
    else if String.eqb id "StreamConfig" then capacity (fun n => Some (CStream n))
    else None)).
(** The parse of a value, and of its elements if it is an array. *)
Fixpoint parse (v : toml) : option config * list (option config) :=
  match v with
  | TTable t => (table_config (map (fun p => (fst p, (snd p, parse (snd p)))) t), [])
  | TArr l => (None, map (fun v => fst (parse v)) l)
  | _ => (None, [])
  end.
(** GenericConfig::from_toml, /repo/src/config/generic_config.rs:49-123. *)
Definition generic_from_toml (v : toml) : option config := fst (parse v).

(** DecorationType, /repo/src/decorator/config.rs:12-19. *)
Inductive decoration : Type := DNone | DFifo | DLru | DLrfu (exponent : Q).
(** ConfigBuilder::from_toml, /repo/src/config/config_builder.rs:159-197. *)
Definition builder_from_toml (v : toml) : option (config * decoration) :=
  match v with
  | TTable t =>
      obind (match look "decorator" t with
             | None => Some DNone
             | Some (TTable d) =>
                 match look "kind" d with
                 | None => Some DNone
                 | Some (TStr s) =>
                     if String.eqb s "Fifo" then Some DFifo
                     else if String.eqb s "Lru" then Some DLru
                     else if String.eqb s "Lrfu" then
                       match look "decorator.Lrfu.exponent" t with
                       | None => Some (DLrfu 1%Q)
                       | Some (TFloat f) => Some (DLrfu f)
                       | Some _ => None
                       end
                     else None
                 | Some _ => None
                 end
             | Some _ => None
             end) (fun d => obind (generic_from_toml v) (fun c => Some (c, d)))
  | _ => None
  end.
End Parse.

(** ** Concurrency flags *)
(** [ConfigInstance::is_concurrent] on a GenericConfig: the default of the trait, /repo/src/config/mod.rs:157-162
    (GenericConfig does not override it). *)
Definition generic_is_concurrent (c : config) : bool := false.
(** [is_concurrent] of each configuration: AssociativeConfig (/repo/src/associative/config.rs:108-113),
    FlushStopperConfig (flush_stopper/config.rs:76-80), ProfilerConfig (profiler/config.rs:89-93), SequentialConfig
    (sequential/config.rs:87-89), the others by default false. *)
Definition is_concurrent (c : config) : bool :=
  match c with
  | CAssociative l => forallb generic_is_concurrent l
  | CFlushStopper c => generic_is_concurrent c
  | CProfiler c => generic_is_concurrent c
  | CSequential _ => true
  | _ => false
  end.
(** The flag [has_concurrent_trait] each [build] passes to DynBuildingBlock::new (<container>/config.rs), and the flag of the
    whole ConfigBuilder::build (/repo/src/config/config_builder.rs:199-226). *)
Definition build_flag (c : config) : bool :=
  match c with
  | CAssociative _ | CFlushStopper _ | CProfiler _ => is_concurrent c
  | CSequential _ => true
  | CArray _ | CBTree _ | CCompressed _ _ | CStream _ | CSocket _ | CBatch _ | CExclusive _ _ => false
  end.
Definition builder_flag (b : config * decoration) : bool :=
  match snd b with DNone => build_flag (fst b) | _ => is_concurrent (fst b) end.

(** DynBuildingBlock::into_concurrent, /repo/src/objsafe/building_block.rs:114-120, on a boxed container [c] with
    its flag: [inl] is Ok, [inr] is Err. *)
Definition into_concurrent {C : Type} (b : C * bool) : C + (C * bool) := if snd b then inl (fst b) else inr b.

(** ** Building, for the containers of Arch.v *)
Section Build.
Context {K : Type} {OK : Ord K}.
Variable bs : BSearch K.
Variable srt : forall V (OV : Ord V), Sorter (K * V) V snd.
(** DefaultHasher of the standard library. *)
Variable hash : K -> N.

(** [build] of each configuration, /repo/src/<container>/config.rs: each container is boxed into a DynBuildingBlock.
    [None] for CompressedConfig, StreamConfig and SocketClientConfig, whose containers are not in Arch.v, and for
    an AssociativeConfig without containers (see the theorem on it). *)
Fixpoint build {V : Type} {OV : Ord V} (c : config) : option (arch K V) :=
  match c with
  | CArray cap => Some (ADyn (AArray (srt OV) bs cap (fun _ => 1)))
  | CBTree cap => Some (ADyn (ABTree OV cap (fun _ => 1)))
  | CCompressed _ _ | CStream _ | CSocket _ => None
  | CBatch l =>
      obind (all_some (map build l)) (fun l =>
        Some (ADyn (ABatch (length l) (fun i => nth i l (ABTree OV 0 (fun _ => 1))))))
  | CAssociative l =>
      obind (all_some (map build l)) (fun l =>
        match l with
        | [] => None
        | _ :: l' => Some (ADyn (AAssociative hash (length l') (fun i => nth i l (ABTree OV 0 (fun _ => 1)))))
        end)
  | CExclusive f b =>
      obind (build f) (fun f => obind (build b) (fun b => Some (ADyn (AExclusive bs f b))))
  | CFlushStopper c => obind (build c) (fun a => Some (ADyn (AFlushStopper a)))
  | CProfiler c => obind (build c) (fun a => Some (ADyn (AProfiler a)))
  | CSequential c => obind (build c) (fun a => Some (ADyn (ASequential a)))
  end.
(** ConfigBuilder::build, /repo/src/config/config_builder.rs:199-222.  [clock]: the readings of Counter.  [None] for
    Lrfu, whose comparison is not an order (PLrfu.v). *)
Definition builder_build {V : Type} {OV : Ord V} (clock : nat -> nat) (b : config * decoration) : option (arch K V) :=
  match snd b with
  | DNone => build (fst b)
  | DFifo => obind (@build (fifo_cell V) fifo_ord (fst b)) (fun a => Some (ADyn (ADecorator Fifo fifo_new a)))
  | DLru => obind (@build (lru_cell V) lru_ord (fst b)) (fun a => Some (ADyn (ADecorator (Lru clock) 0 a)))
  | DLrfu _ => None
  end.
End Build.

(** ** Types: which containers implement the trait Concurrent, and the flags of [DynBuildingBlock::from] *)
Inductive shape : Type :=
| ShArray | ShBTree | ShCompressed | ShStream | ShSocket
| ShBatch (s : shape) | ShExclusive (l r : shape) | ShInclusive (l r : shape)
| ShAssociative (s : shape) | ShFlushStopper (s : shape) | ShProfiler (s : shape) | ShDecorator (s : shape)
| ShSequential (s : shape).
(** impl Concurrent: /repo/src/decorator/concurrent.rs:19, profiler/concurrent.rs:8, sequential/concurrent.rs:8,
    associative/concurrent.rs:9; no other container. *)
Fixpoint impl_concurrent (s : shape) : bool :=
  match s with
  | ShSequential _ => true
  | ShAssociative s | ShProfiler s | ShDecorator s => impl_concurrent s
  | _ => false
  end.
(** The implementations of From<...> for DynBuildingBlock: array/array.rs:124, inclusive/inclusive.rs:188,
    exclusive/exclusive.rs:166, flush_stopper/flush_stopper.rs:75-85, socket/client.rs:72, decorator/decorator.rs:69-80,
    compression/compression.rs:200, profiler/profiler.rs:235-245, btree/btree.rs:151, sequential/sequential.rs:69-78,
    stream/stream.rs:118-128, associative/associative.rs:97-108, batch/batch.rs:72-81.  [None]: no implementation (the
    wrapped container does not satisfy the bound Concurrent). *)
Definition from_flag (s : shape) : option bool :=
  match s with
  | ShArray | ShBTree | ShCompressed | ShSocket => Some false
  | ShBatch _ | ShExclusive _ _ | ShInclusive _ _ | ShDecorator _ => Some false
  | ShStream => Some true
  | ShSequential _ => Some true
  | ShFlushStopper s | ShProfiler s | ShAssociative s => if impl_concurrent s then Some true else None
  end.
