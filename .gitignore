*.vo
*.vos
*.vok
*.glob
*.aux
.lia.cache
.nia.cache
rocq/Makefile
rocq/Makefile.conf
rocq/.Makefile.d
rocq/theories/.nra.cache
rocq/theories/.lia.cache
rocq/theories/.nia.cache
.nra.cache
