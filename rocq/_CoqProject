-Q theories Verif
theories/Bytes.v
theories/Resp.v
theories/Parser.v
theories/Prog.v
theories/Glob.v
theories/CmdKeys.v
theories/CmdStrings.v
theories/CmdHash.v
theories/CmdList.v
theories/CmdSet.v
theories/Table.v
theories/Seq.v
theories/Spec.v
theories/Wp.v
theories/WpTac.v
theories/StringsProofs.v
theories/SetProofs.v
theories/KeysProofs.v
theories/KeysKeys.v
theories/SpecGlob.v
theories/GlobProofs.v
theories/GlobExact.v
theories/GlobKeys.v
theories/HashProofs.v
theories/ListProofs.v
theories/LposProofs.v
theories/SetCmdProofs.v
theories/Demo.v
theories/SpecGeneric.v
theories/SpecWire.v
theories/Ints.v
theories/ParserProofs.v
theories/WireProofs.v
theories/FrameProofs.v
theories/Wf.v
theories/WfCmds.v
theories/Replies.v
theories/Server.v
theories/Pres.v
theories/Reads.v
theories/Generic.v
theories/Expired.v
theories/History.v
theories/DemoHist.v
theories/GenericFacts.v
theories/SpecServer.v
theories/ServerProofs.v
theories/DemoWire.v
theories/PropWire.v
theories/PropServer.v
theories/PropGlob.v
theories/PropGeneric.v
theories/PropKeys.v
theories/PropStrings.v
theories/PropHash.v
theories/PropList.v
theories/PropSet.v
theories/DList.v
theories/SpecDList.v
theories/DListProofs.v
theories/DListOps.v
theories/DListCall.v
theories/PropDList.v
theories/Conc.v
theories/ConcProofs.v
theories/Sched.v
theories/PropConc.v
theories/Serial.v
theories/SerialProofs.v
theories/Lin.v
theories/LinProofs.v
theories/LinCmds.v
theories/LinClock.v
theories/LinMain.v
theories/SpecSplit.v
theories/LinSplit.v
theories/CountProofs.v
theories/PropSerial.v
theories/CMap.v
theories/SpecCMap.v
theories/CMapProofs.v
theories/PropCMap.v
theories/Keeps.v
theories/NxProofs.v
theories/Shrink.v
theories/RaceMain.v
theories/PropRace.v
theories/Config.v
theories/SpecConfig.v
theories/ConfigProofs.v
theories/Startup.v
theories/StartupProofs.v
theories/PropConfig.v
theories/Net.v
theories/SpecNet.v
theories/NetProofs.v
theories/NetMain.v
theories/NetSched.v
theories/PropNet.v
theories/Pipe.v
theories/SpecPipe.v
theories/PipeProofs.v
theories/PipeSched.v
theories/PropPipe.v
theories/Slice.v
theories/SpecSlice.v
theories/SliceProofs.v
theories/PropSlice.v
theories/World.v
theories/SpecWorld.v
theories/WorldProofs.v
theories/WorldMain.v
theories/WorldSched.v
theories/Calm.v
theories/Safe.v
theories/SpecPanic.v
theories/SafeCmds.v
theories/PanicExact.v
theories/SpecEmpty.v
theories/Full.v
theories/FullCmds.v
theories/FullMain.v
theories/PropEmpty.v
theories/SpecGrammar.v
theories/GramProofs.v
theories/GramPipe.v
theories/GramWorld.v
theories/PropGrammar.v
theories/PropPanic.v
theories/PipeCalm.v
theories/WorldPanic.v
theories/PropWorld.v
theories/SpecRef.v
theories/RefBase.v
theories/RefStrings.v
theories/RefKeys.v
theories/RefHash.v
theories/RefList.v
theories/RefSet.v
theories/RefAll.v
theories/RefDet.v
theories/DemoRef.v
theories/PropRef.v
theories/SpecWhole.v
theories/WholeProofs.v
theories/OneProofs.v
theories/DemoWhole.v
theories/PropWhole.v
theories/Main.v
theories/SpecMain.v
theories/MainInt.v
theories/MainProofs.v
theories/MainStart.v
theories/Log.v
theories/SpecLog.v
theories/LogProofs.v
theories/PropMain.v
theories/Flow.v
theories/SpecFlow.v
theories/FlowProofs.v
theories/FlowSched.v
theories/PropFlow.v
theories/SpecParts.v
theories/PartsProofs.v
theories/PropParts.v
theories/Shard.v
theories/SpecShard.v
theories/ShardProofs.v
theories/ShardSched.v
theories/PropShard.v
theories/SpecReaders.v
theories/ReadersProofs.v
theories/PropReaders.v
theories/SpecStable.v
theories/StableProofs.v
theories/StableSched.v
theories/PropStable.v
theories/TypesProofs.v
theories/PropTypes.v
theories/SpecRace.v
theories/RaceProofs.v
theories/RaceSched.v
theories/PropOrdered.v
theories/SpecHoldup.v
theories/HoldupProofs.v
theories/HoldupSched.v
theories/PropHoldup.v
theories/SpecStall.v
theories/StallProofs.v
theories/StallSched.v
theories/PropStall.v
theories/SpecApart.v
theories/ApartProofs.v
theories/TimelessProofs.v
theories/AlikeProofs.v
theories/PropApart.v
theories/SpecStale.v
theories/StaleLink.v
theories/StaleProofs.v
theories/StaleMain.v
theories/PropStale.v
theories/SpecTally.v
theories/TallyProg.v
theories/TallyProofs.v
theories/TallyMain.v
theories/PropTally.v
theories/SpecNil.v
theories/NilProofs.v
theories/SpecMute.v
theories/MuteProofs.v
theories/MuteSched.v
theories/PropMute.v
theories/HandleTotal.v
theories/Outside.v
theories/OutsideFlow.v
theories/SpecMemory.v
theories/MemoryProofs.v
theories/MemoryMain.v
theories/PropMemory.v
theories/SpecExpired.v
theories/ExpiredProofs.v
theories/ExpiredCmds.v
theories/ExpiredMain.v
theories/ExpiredLog.v
theories/PropExpired.v
theories/SpecOnlyRead.v
theories/OnlyReadProofs.v
theories/OnlyReadMain.v
theories/OnlyReadGet.v
theories/PropOnlyRead.v
theories/AloneProofs.v
theories/PropAlone.v
