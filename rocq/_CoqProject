-Q theories Verif

theories/Base.v
theories/GoFloat.v
theories/FloatLib.v
theories/CacheModel.v
theories/CacheSpec.v
theories/CacheAbs.v
theories/CacheRefine.v
theories/CacheRefineH.v
theories/CacheMain.v
theories/CacheLib.v
theories/Props_String.v
theories/Props_String2.v
theories/Props_Counter.v
theories/Props_Multi.v
theories/Props_Db.v
theories/Props_Hash.v
theories/Props_Hash2.v
theories/Props_Float.v
theories/CacheConc.v
theories/ConcLin.v
theories/ConcSafe.v
theories/ConcRead.v
theories/ConcDl.v
theories/ConcHash.v
theories/ConcKey.v
theories/Props_Conc.v
theories/RespModel.v
theories/RespSpec.v
theories/RespLib.v
theories/Props_Resp.v
theories/ClientModel.v
theories/Props_Client.v
theories/PoolModel.v
theories/Props_Pool.v
theories/LzfModel.v
theories/LzfSpec.v
theories/LzfLib.v
theories/Props_Lzf.v
theories/PackedModel.v
theories/PackedSpec.v
theories/Props_Packed.v
theories/RdbModel.v
theories/RdbSpec.v
theories/RdbLib.v
theories/Props_Rdb.v
theories/ReplModel.v
theories/Props_Repl.v
theories/RemoteModel.v
theories/Props_Remote.v
theories/FacadeModel.v
theories/Props_Facade.v
theories/ListModel.v
theories/Props_List.v
theories/Props_Pool2.v
theories/AckModel.v
theories/Props_Ack.v
theories/Props_Remote2.v
theories/Props_Conc2.v
theories/Props_Conc3.v
theories/Props_Packed2.v
theories/Props_Exact.v
theories/Props_Resp2.v
theories/ConcLen.v
theories/Props_Conc4.v
theories/Props_Conc5.v
theories/ConcOwn.v
theories/Props_Conc6.v
theories/LzfFit.v
theories/Props_Lzf2.v
theories/Props_Packed3.v
theories/Props_Laws.v
theories/Props_Exact2.v
theories/StoreSpec.v
theories/Props_Store.v
theories/Props_Store2.v
theories/Props_Store3.v
theories/Props_Mirror.v
theories/Props_Conc7.v
theories/Props_Conc8.v
theories/Props_Conc9.v
theories/CacheFine.v
theories/Props_Conc10.v
theories/Props_Conc11.v
theories/CacheRange.v
theories/Props_Conc12.v
theories/CacheSim.v
theories/CacheRename.v
theories/Props_Conc13.v
theories/CacheSame.v
theories/Props_Conc14.v
theories/CacheRace.v
theories/Props_Race.v
theories/PoolFine.v
theories/Props_PoolFine.v
theories/WriterModel.v
theories/Props_Writer.v
theories/LiveModel.v
theories/Props_Live.v
theories/Props_Exact3.v
theories/RecoverModel.v
theories/Props_Recover.v
theories/Props_Recover2.v
theories/MirrorConc.v
theories/Props_MirrorConc.v
theories/SetupModel.v
theories/Props_Setup.v
theories/Props_Cut.v
theories/Props_Lost.v
theories/Props_Born.v
theories/Props_Nx.v
theories/Props_Del.v
theories/Props_Bad.v
theories/Props_Mixed.v
theories/Props_Iff.v
theories/Props_Copy.v
theories/Props_Iff2.v
